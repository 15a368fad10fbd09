*.vo
*.vok
*.vos
*.glob
*.aux
Makefile
Makefile.conf
.Makefile.d
*.d
.*.cache
.lia.cache
.nia.cache
.nra.cache

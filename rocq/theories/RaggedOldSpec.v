(** What summing the groups of a ragged row means *)
From Coq Require Import List Arith Reals.
Import ListNotations.
Open Scope R_scope.
Definition total (l : list R) : R := fold_right Rplus 0 l.
Definition count (sizes : list nat) : nat := fold_right Nat.add O sizes.
(** the j-th group: sizes[j] consecutive entries after those of the earlier groups *)
Definition group (sizes : list nat) (j : nat) (row : list R) : list R := firstn (nth j sizes O) (skipn (count (firstn j sizes)) row).

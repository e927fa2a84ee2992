(** Histories of cache operations. *)
From Coq Require Import List ZArith.
Import ListNotations.
From Verif Require Import Base ScoreModel.

Definition same_set (I J : list nat) : Prop := incl I J /\ incl J I.

Section CacheSpec.
Variables M S : Type.
Inductive op := OWrite (A : mat) (I : list nat) (m : M) (s : S) | ORead (A : mat) (I : list nat).
Definition op_A (o : op) : mat := match o with OWrite A _ _ _ | ORead A _ => A end.

(** o is a write with key (A, I). *)
Definition writes (A : mat) (I : list nat) (o : op) : Prop :=
  match o with OWrite A' I' _ _ => A' = A /\ same_set I' I | ORead _ _ => False end.

(** The first write with key (A, I) in the history was of model m and score s. *)
Definition first_write (h : list op) (A : mat) (I : list nat) (m : M) (s : S) : Prop :=
  exists h1 I' h2, h = h1 ++ OWrite A I' m s :: h2 /\ same_set I' I /\ Forall (fun o => ~ writes A I o) h1.

(** The cache after a history; reads do not change it. *)
Definition after (copy : M -> res M) (h : list op) : cache M S :=
  fold_left (fun c o => match o with OWrite A J m s => fst (write copy c A J m s) | ORead _ _ => c end) h (empty_cache M S).
End CacheSpec.
Arguments OWrite {M S}. Arguments ORead {M S}. Arguments op_A {M S}. Arguments writes {M S}. Arguments first_write {M S}.
Arguments after {M S}.

(** Examples for C147. *)
From Coq Require Import List ZArith QArith SpecFloat Lia.
Import ListNotations.
From Verif Require Import Base ListModel FloatModel FloatSpec FloatProofs PropFloat.
Local Open Scope Z_scope.

(** The default folds, with numpy adding from the left, starting with 0 *)
Definition ex_folds : list Q := [1 # 2; 1 # 4; 1 # 4].
Definition from_left (a b c : Q) : sum_order := Plus (Plus (Plus (Leaf 0) (Leaf a)) (Leaf b)) (Leaf c).

Lemma ex_dyadic r : In r ex_folds -> dyadic 0 r.
Proof.
  intros [<-|[<-|[<-|[]]]]; exists 1; [exists 1 | exists 2 | exists 2]; (split; [lia|]; split; [lia|reflexivity]).
Qed.

Example C147_dyadic_ex : forall (A : Type) (shuffle : nat -> list A -> list A) data,
  (forall s, In s data -> Z.of_nat (length s) <= 2 ^ 53) ->
  split_floats (from_left (1 # 2) (1 # 4) (1 # 4)) shuffle data ex_folds = split_data shuffle data ex_folds.
Proof.
  intros A shuffle data H. apply (C147_dyadic_partial A 0); auto; [lia | right; reflexivity | apply ex_dyadic | reflexivity].
Qed.
Example C147_dyadic_run : split_floats (from_left (1 # 2) (1 # 4) (1 # 4)) (fun _ l => rev l) [[1; 2; 3; 4; 5; 6; 7]; [8; 9; 10; 11]] ex_folds =
  Ok [[[7; 6; 5; 4]; [11; 10]]; [[3; 2]; [9]]; [[1]; [8]]].
Proof. vm_compute. reflexivity. Qed.

(** 0.7, 0.2, 0.1 are rejected if numpy adds from the left; so are the ratios of C147_decimals_refuted *)
Example C147_decimals_ex : forall t, t = from_left (fl (7 # 10)) (fl (2 # 10)) (fl (1 # 10)) \/ t = from_left (fl (35 # 100)) (fl (30 # 100)) (fl (35 # 100)) ->
  split_floats t (fun _ l => l) [[1; 2; 3; 4; 5; 6; 7]] (tl (leaves t)) = Err ValueError.
Proof. intros t [-> | ->]; vm_compute; reflexivity. Qed.

(** The same sums in the specification of binary64 of the standard library *)
Definition sf (n d : Z) : spec_float :=
  SFdiv 53 1024 (binary_normalize 53 1024 n 0 false) (binary_normalize 53 1024 d 0 false).
Definition value (x : spec_float) : Q :=
  match x with S754_finite false m e => (inject_Z (Zpos m) * 2 ^ e)%Q | _ => 0%Q end.
Example C147_spec_float :
  Forall (fun n => Qeq_bool (value (sf n 100)) (fl (n # 100)) = true) [35; 30; 7; 65; 1; 99] /\
  (let a := sf 35 100 in let b := sf 30 100 in
   SFeqb (SFadd 53 1024 (SFadd 53 1024 a b) a) (sf 1 1) = false /\
   SFeqb (SFadd 53 1024 a (SFadd 53 1024 b a)) (sf 1 1) = false) /\
  SFeqb (SFadd 53 1024 (SFadd 53 1024 (sf 7 10) (sf 2 10)) (sf 1 10)) (sf 1 1) = false.
Proof. split; [repeat constructor; vm_compute; reflexivity | vm_compute; auto]. Qed.

(** One third is rounded, 3/8 is not *)
Example C147_rounding_ex : (Qeq_bool (fl (1 # 3)) (6004799503160661 # 18014398509481984) = true) /\ (fl (3 # 8) == 3 # 8)%Q.
Proof. split; [vm_compute; reflexivity|]. apply C147_exact. exists 3, (-3). split; [lia | reflexivity]. Qed.

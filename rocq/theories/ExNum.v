(** Concrete cases for the theorems of PropNum.v. *)
From Coq Require Import ZArith Lia.
From mathcomp Require Import all_ssreflect all_algebra all_fingroup.
From Verif Require Import Base GraphModel GraphSpec TopoProofs NumModel NumSpec NdModel ArraySpec HeapModel HeapSpec.
From Verif Require Import NumProofs PropNum.
Set Implicit Arguments.
Unset Strict Implicit.
Unset Printing Implicit Defensive.
Import Order.Theory GRing.Theory Num.Theory.
Local Open Scope ring_scope.

Definition hid : hord := ho_id.

(** 0 -> 1 with weight 2, one latent, two environments *)
Definition A2 : mat := cons (cons Z0 (cons (Zpos xH) nil)) (cons (cons Z0 (cons Z0 nil)) nil).
Definition B2 : 'M[rat]_2 := \matrix_(i, j) (if (i == 0) && (j == 1) then 2%:R else 0).
Definition g2 : 'M[rat]_(1, 2) := const_mx 1.
Definition o2 : 'M[rat]_(2, 2) := \matrix_(i, j) (1 + (i : nat)%:R).
Definition s2 : 'M[rat]_(2, 1) := const_mx 3%:R.
Definition m2 : model [realFieldType of rat] 2 1 2 := MkModel A2 B2 g2 o2 s2 (1%:M - B2^T).

Lemma A2_square : square 2 A2.
Proof. by split=> //; do 3 constructor. Qed.
Lemma A2_nonneg : nonneg A2.
Proof. by move=> [|[|[|i]]] [|[|[|j]]] //=; lia. Qed.
Lemma A2_acyclic : acyclic A2.
Proof.
have [d [E H]] := is_dag_spec hid 2 A2 A2_square A2_nonneg.
by apply/H; move: E; vm_compute; case.
Qed.
Lemma B2_supported : supported A2 B2.
Proof. by move=> [[|[|i]] Hi] [[|[|j]] Hj] //; rewrite mxE /= ?eqxx. Qed.

Example m2_built : new_model hid A2 B2 g2 o2 s2 = Ok m2.
Proof.
case: (new_model_spec hid B2 g2 o2 s2 A2_square A2_nonneg) => [[_ [_ ->]] //|[]].
by case; split; [exact: A2_acyclic | exact: B2_supported].
Qed.
Example o2_positive : positive o2.
Proof. by move=> [[|[|i]] Hi] [[|[|j]] Hj] //; rewrite mxE. Qed.
Example s2_nonneg : forall a b, 0 <= s2 a b.
Proof. by move=> a b; rewrite mxE. Qed.

(** C60, C61: the hypotheses hold *)
Example C60_ex : \det (1%:M - B2^T) = 1.
Proof. exact: (proj1 (C60_covariances A2_square A2_nonneg m2_built)). Qed.
Example C61_ex log sigmas n : exists x, score log m2 sigmas n = Ok x.
Proof.
exact: (proj2 (proj2 (proj2 (C61_positive_definite log sigmas n A2_square A2_nonneg m2_built o2_positive s2_nonneg)))).
Qed.
(** The noise covariance in the first environment is [4 3; 3 4]. *)
Example noise_ex : noise_cov g2 o2 s2 0 0 0 = 4%:R /\ noise_cov g2 o2 s2 0 0 1 = 3%:R.
Proof.
by split; rewrite !mxE !big_ord1 !mxE !big_ord1 !mxE /=.
Qed.

(** C59: another B with the same pattern *)
Example C59_ex : copy_model hid (MkModel A2 (5%:R *: B2) g2 o2 s2 (1%:M - B2^T)) =
  Ok (MkModel A2 (5%:R *: B2) g2 o2 s2 (1%:M - (5%:R *: B2)^T)).
Proof.
apply: (C59_copy_succeeds _ _ _ A2_square A2_nonneg m2_built) => i j.
by rewrite mxE mulf_eq0 negb_or => /andP [_ /B2_supported].
Qed.

(** C58: accepted and rejected arrays *)
Definition B2nd : nd rat := MkNd [:: 2%N; 2%N] [:: 0; 2%:R; 0; 0].
Definition B2bad : nd rat := MkNd [:: 2%N; 2%N] [:: 0; 2%:R; 1; 0].
Definition g2nd : nd rat := MkNd [:: 1%N; 2%N] [:: 1; 1].
Definition o2nd : nd rat := MkNd [:: 2%N; 2%N] [:: 1; 1; 2%:R; 2%:R].
Definition s2nd : nd rat := MkNd [:: 2%N; 1%N] [:: 3%:R; 3%:R].
Definition ok_dims (r : res (umodel [realFieldType of rat])) : option (nat * nat * nat * bool) :=
  match r with
  | Ok m => Some (ul m, up m, ue m, nvals (uI_B m) == [:: 1; 0; - 2%:R; 1])
  | Err _ => None
  end.
Definition err_of T (r : res T) : option exn := match r with Ok _ => None | Err x => Some x end.
Example C58_ex_ok : ok_dims (nd_model hid (MkNd [:: 2%N; 2%N] (flatten A2)) B2nd g2nd o2nd s2nd) = Some (1%N, 2%N, 2%N, true).
Proof. by vm_compute. Qed.
Example C58_ex_support :
  err_of (nd_model hid (MkNd [:: 2%N; 2%N] (flatten A2)) B2bad g2nd o2nd s2nd) = Some ValueError.
Proof. by vm_compute. Qed.
Example C58_ex_shape :
  err_of (nd_model hid (MkNd [:: 2%N; 2%N] (flatten A2)) B2nd g2nd s2nd s2nd) = Some ValueError.
Proof. by vm_compute. Qed.

(** C63 *)
Example C63_ex1 : check_n_obs 2 true (PList [:: PInt (Zpos xH); POther]) = Err ValueError.
Proof. by vm_compute. Qed.
Example C63_ex2 : check_n_obs 2 false (PList [:: PInt (Zpos xH); POther]) = Err TypeError.
Proof. by vm_compute. Qed.
Example C63_ex3 : check_n_obs 2 true (PInt (Zpos (xO (xI (xO xH))))) = Ok [:: 10%N; 10%N].
Proof. by vm_compute. Qed.

(** C68 *)
Example C68_ex : intervention_strength m2 0 = (4%:R^-1 / 2%:R) /\ const_col s2 0.
Proof.
split; last by move=> i i'; rewrite !mxE.
rewrite /intervention_strength /col_var /col_max /col_mean !enum_ordSl enum_ord0.
by rewrite !big_ord_recl !big_ord0 /= !mxE.
Qed.

(** C71 *)
Definition arr (r c : nat) : nd rat := MkNd [:: r; c] [::].
Example C71_ex1 : score_init (fun _ => tt) (DList unit [:: Some (arr 10 3); Some (arr 20 3)]) true =
  Ok ([:: tt; tt], [:: 10%N; 20%N]).
Proof. by vm_compute. Qed.
Example C71_ex2 : score_init (fun _ => tt) (DList unit [:: Some (arr 10 3); Some (arr 20 4)]) true = Err ValueError.
Proof. by vm_compute. Qed.
Example C71_ex3 : score_init (fun _ => tt) (DList unit [:: Some (arr 10 3); Some (arr 1 3)]) true = Err ValueError.
Proof. by vm_compute. Qed.

(** C59, C72: a history with two objects, one written to the cache *)
Definition ok5t (_ _ _ _ _ : nat) : res unit := Ok tt.
Definition hist : seq (cmd nat) :=
  [:: CArr nat 7%N; CNew nat 0 0 0 0 0; CCopy nat 0; CWrite nat 1; CPoke nat 0 aB (fun x => x.+1); CPokeArr nat 0 (fun=> 0%N)].
Example C59_hist : [seq s_B nat (view nat 0%N (exec_all nat 0%N ok5t id hist (start nat)) k) | k <- iota 0 3] = [:: 8; 7; 7]%N.
Proof. by vm_compute. Qed.
Example C72_hist : cached nat (exec_all nat 0%N ok5t id hist (start nat)) = [:: 2%N].
Proof. by vm_compute. Qed.

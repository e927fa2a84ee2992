(** Lemmas on the shape of the array of sample covariances. *)
From Coq Require Import ZArith.
From mathcomp Require Import all_ssreflect all_algebra.
From Verif Require Import Base GraphModel GraphSpec TopoProofs NumModel NdModel NdProofs CovModel ShapeModel ShapeSpec.
Set Implicit Arguments.
Unset Strict Implicit.
Unset Printing Implicit Defensive.
Import GRing.Theory.
Local Open Scope ring_scope.

Lemma sum_nth (V : Type) (F : realFieldType) (d : V) (f : V -> F) (s : seq V) :
  \sum_(i <- iota 0 (size s)) f (nth d s i) = \sum_(x <- s) f x.
Proof. by rewrite -(big_map (nth d s) xpredT f) -/(mkseq _ _) mkseq_nth. Qed.

Section Shape.
Variables (F : realFieldType) (p : nat).
Implicit Types X : seq 'rV[F]_p.

Lemma enum_nat (V : Type) (f : nat -> V) : [seq f i | i <- iota 0 p] = [seq f (val i) | i <- enum 'I_p].
Proof. by rewrite -[in LHS](val_enum_ord p) -map_comp. Qed.

Lemma sample_get X i (j : 'I_p) : (i < size X)%N -> ndget 0 (sample_array X) i j = nth 0 X i 0 j.
Proof.
rewrite /ndget /=; elim: X i => [|x X IH] [|i] //= Hi; rewrite nth_cat size_map size_enum_ord.
  by rewrite mul0n add0n ltn_ord (nth_map j) ?size_enum_ord // nth_ord_enum.
by rewrite mulSn -addnA ltnNge leq_addr /= addKn; apply: IH.
Qed.

Lemma cov_vals X : nvals (nd_cov (sample_array X)) = flatten [seq [seq np_cov X i j | j <- enum 'I_p] | i <- enum 'I_p].
Proof.
rewrite /nd_cov /= /allpairs_dep !enum_nat; congr flatten; apply: eq_map => i /=; rewrite enum_nat; apply: eq_map => j /=.
have Em (k : 'I_p) : (nlen (sample_array X))%:R^-1 * (\sum_(r <- iota 0 (nlen (sample_array X))) ndget 0 (sample_array X) r k) =
                     ((size X)%:R^-1 *: \sum_(x <- X) x) 0 k.
  rewrite mxE summxE; congr (_ * _); rewrite -(sum_nth 0).
  by rewrite big_seq [in RHS]big_seq; apply: eq_bigr => r; rewrite mem_iota add0n /= => Hr; rewrite -sample_get.
rewrite /np_cov mxE summxE; congr (_ * _); rewrite -(sum_nth 0).
rewrite big_seq [in RHS]big_seq; apply: eq_bigr => r; rewrite mem_iota add0n => Hr.
by rewrite !Em [RHS]mxE big_ord1 !mxE -!sample_get.
Qed.

Lemma cov_shape X : nshape (nd_cov (sample_array X)) = if p == 1%N then [::] else [:: p; p].
Proof. by rewrite /nd_cov /=; case: (p == 1%N). Qed.

Lemma all_cov_shape (Xs : seq (seq 'rV[F]_p)) s : s = (if p == 1%N then [::] else [:: p; p]) ->
  all (fun x : nd F => nshape x == s) [seq nd_cov (sample_array X) | X <- Xs].
Proof. by move=> ->; rewrite all_map; apply/allP => X _; apply/eqP; exact: cov_shape. Qed.

(** np.array of the covariances *)
Lemma array_cov (Xs : seq (seq 'rV[F]_p)) : Xs != [::] ->
  sample_covs [seq sample_array X | X <- Xs] =
  Ok (MkNd (size Xs :: if p == 1%N then [::] else [:: p; p])
           (flatten [seq flatten [seq [seq np_cov X i j | j <- enum 'I_p] | i <- enum 'I_p] | X <- Xs])).
Proof.
case: Xs => [|X Xs] // _; rewrite /sample_covs /np_array -map_comp.
rewrite [X in if X then _ else _]all_cov_shape; last exact: cov_shape.
congr (Ok (MkNd _ _)); first by rewrite size_map; congr (_ :: _); exact: cov_shape.
by rewrite -map_comp; congr flatten; apply: eq_map => Y; exact: cov_vals.
Qed.

Lemma init_array (Xs : seq (seq 'rV[F]_p)) : (forall X, X \in Xs -> (2 <= size X)%N) ->
  init_covariances [seq Some (sample_array X) | X <- Xs] true = sample_covs [seq sample_array X | X <- Xs].
Proof.
move=> H2; rewrite /init_covariances.
have E : [seq Some (sample_array X) | X <- Xs] = [seq Some y | y <- [seq sample_array X | X <- Xs]] by rewrite -map_comp.
case: (score_init_list (@nd_cov F) [seq Some (sample_array X) | X <- Xs] true).
  by case=> - [x [Hx Ex]]; move: Hx; rewrite Ex => /List.in_map_iff [X []].
case=> ys []; rewrite {1}E => /(inj_map (@Some_inj _)) <-; case.
  by case=> - [y [Hy Sy]]; move: Hy Sy => /List.in_map_iff [X [<-]].
case=> _ [-> //=]; split=> //.
- move=> y /List.in_map_iff [X [<- HX]] /=; apply/eqP; rewrite gtn_eqF //; apply: H2.
  elim: Xs HX {E} => [|Y Ys IH] //= [->|/IH]; rewrite inE ?eqxx // => ->; exact: orbT.
- by move=> y y' /List.in_map_iff [X [<- HX]] /List.in_map_iff [Y [<- HY]].
Qed.
End Shape.

(** Theorems of PropShape.v *)
Lemma shape_ok (F : realFieldType) (p : nat) (Xs : seq (seq 'rV[F]_p)) : p <> 1%N -> Xs <> [::] ->
  (forall X, X \in Xs -> (2 <= size X)%N) ->
  init_covariances [seq Some (sample_array X) | X <- Xs] true = Ok (stacked [seq np_cov X | X <- Xs]) /\
  sample_covs [seq sample_array X | X <- Xs] = Ok (stacked [seq np_cov X | X <- Xs]).
Proof.
move=> /eqP Hp /eqP HX H2; rewrite init_array // array_cov // (negbTE Hp) /stacked size_map -!map_comp.
by split.
Qed.

Lemma start_ok (F : realFieldType) (p : nat) (S : seq 'M[F]_p) (h : hord) A : square p A -> nonneg A -> acyclic A ->
  score_dag_start h (stacked S) A = Ok (size S, p, p).
Proof. by move=> Hs Hn Ha; rewrite /score_dag_start (is_dag_true h p). Qed.

Lemma start_cyclic (F : realFieldType) (covs : nd F) (h : hord) p A : square p A -> nonneg A -> ~ acyclic A ->
  score_dag_start h covs A = Err ValueError.
Proof. by move=> Hs Hn Ha; rewrite /score_dag_start (is_dag_false h p). Qed.

Lemma one_variable (F : realFieldType) (Xs : seq (seq 'rV[F]_1)) : (forall X, X \in Xs -> (2 <= size X)%N) ->
  exists covs, [/\ init_covariances [seq Some (sample_array X) | X <- Xs] true = Ok covs,
    sample_covs [seq sample_array X | X <- Xs] = Ok covs, nshape covs = [:: size Xs] &
    forall h q A, square q A -> nonneg A -> score_dag_start h covs A = Err ValueError].
Proof.
move=> H2; rewrite init_array //.
have [covs [E S]] : exists covs, sample_covs [seq sample_array X | X <- Xs] = Ok covs /\ nshape covs = [:: size Xs].
  have [->|/eqP N] := eqVneq Xs [::]; first by eexists; split.
  by rewrite array_cov; [eexists; split|apply/eqP].
exists covs; split=> // h q A Hs Hn; rewrite /score_dag_start.
by have [[] [-> _]] := is_dag_spec h q A Hs Hn; rewrite /= /unpack3 ?S.
Qed.

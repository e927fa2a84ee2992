(** The means of the environments can change the result of equivalence_class_w_ges (C129). *)
From Coq Require Import ZArith QArith Lia List Permutation.
From mathcomp Require Import all_ssreflect all_algebra.
From Verif Require Import Base GraphModel GraphSpec TopoProofs MeekProofs ListModel NumModel NumSpec LinAlgProofs NumProofs ScoreModel CacheSpec CacheProofs.
From Verif Require Import ScoreSpec GDProofs ScoreProofs HistProofs LoopProofs Lr0Proofs NoErrProofs RunProofs Run2Proofs CovModel MainModel MainSpec PruneProofs.
From Verif Require Import SelectProofs FitProofs TotalProofs MainRunProofs SeedProofs ClassProofs ExMainDefs QFieldProofs CandSpec CandProofs DupProofs.
From Verif Require Import StatSpec StatProofs FieldTac NamesProofs.
Set Implicit Arguments.
Unset Strict Implicit.
Unset Printing Implicit Defensive.
Import Order.Theory GRing.Theory Num.Theory.
Local Open Scope nat_scope.
Local Open Scope ring_scope.
Local Notation "a ## b" := (Qmake (Zpos a) b) (at level 30).

(** Without latents, the score for the samples whose residual variances are the fitted variances *)
Lemma exact_score (F : realFieldType) (p e : nat) (log : F -> F) (m : model F p 0 e) (S : 'I_e -> 'M[F]_p) n :
  positive (momegas m) -> (forall k j, momegas m k j = (mI_B m *m S k *m (mI_B m)^T) j j) ->
  score log m S n = Ok (\sum_(k < e) (n k)%:R * (- log (\prod_j (momegas m k j)^-1) + p%:R) / (\sum_i n i)%N%:R ^+ (e - k)).
Proof.
move=> PO EO; rewrite score_value //; last by move=> x [].
congr Ok; apply: eq_bigr => k _; congr (_ * _ / _).
have D : mnoise m k = diag_mx (\row_j momegas m k j).
  rewrite /mnoise /noise_cov; have -> : mgamma m = 0 by apply/matrixP => -[].
  by rewrite mulmx0 add0r; congr diag_mx; apply/rowP => j; rewrite !mxE.
have IV : invmx (mnoise m k) = diag_mx (\row_j (momegas m k j)^-1).
  have U : diag_mx (\row_j momegas m k j) \in unitmx.
    by rewrite unitmxE unitfE det_diag; apply/prodf_neq0 => j _; rewrite mxE gt_eqF.
  rewrite D; set d' := diag_mx (\row_j (momegas m k j)^-1).
  have DD : diag_mx (\row_j momegas m k j) *m d' = 1%:M.
    by apply/matrixP => i j; rewrite mul_diag_mx !mxE mulrnAr; congr (_ *+ _); rewrite mulfV // gt_eqF.
  by rewrite -[RHS](mulKmx U) DD mulmx1.
rewrite IV det_diag; congr (- log _ + _); first by apply: eq_bigr => j _; rewrite mxE.
rewrite /mxtrace (eq_bigr (fun=> 1)) ?sumr_const ?card_ord // => j _.
by move: (EO k j); move: (_ *m _) => X EX; rewrite mul_diag_mx mxE mxE -EX mulVf // gt_eqF.
Qed.

Lemma visits_head (F : realFieldType) (p l e : nat) (cf : conf F p l e) fuel G gs L : visits cf fuel true (G :: gs) = Ok L -> exists L', L = G :: L'.
Proof.
rewrite [visits _ _ _ _]/= /visit; case: (D cf G _) => [r|] //=; case: (chain cf fuel G (mB r.1)) => [L1|] //=; case: (visits cf fuel true gs) => [L2|] //= [<-].
by exists (L1 ++ L2).
Qed.

Section GesMean.
Variables (F : realFieldType) (log : F -> F) (pi : F) (h : hord).
Add Field ff : (fieldT F).
Hypothesis LM : forall x y : F, 0 < x -> x < y -> log x < log y.
Local Notation sample := (seq 'rV[F]_2).
Local Notation qF := (@qF F).
Local Notation full := (iota 0 2).
Local Notation mixed := (mixed F).

Definition und2 : mat := cons (cons Z0 (cons (Zpos xH) nil)) (cons (cons (Zpos xH) (cons Z0 nil)) nil).
Definition ges_world : world F 2 2 :=
  World log pi h id (fun l m => Some (edge_weights F 2 (mA m))) (fun=> (0, 0)) id (fun=> true) (@np_argsort F) (@np_cov F 2)
    (fun X _ => if np_cov X 0 1 == 0 then no_edge2 else und2) (fun seed k xs => xs) (fun _ _ _ => (0, 0)) 4.
Local Notation gargs := (dup_args F).
Definition ges_data (k : 'I_2) : sample := mixed ++ mixed ++ mixed.
Definition ges_shift (k : 'I_2) : 'rV[F]_2 := if k == 0 then 0 else row2 F (2 ## 1) (Qmake (Zneg 4) 1).
Definition ges_data' (k : 'I_2) : sample := translate (ges_shift k) (ges_data k).
Local Notation tr := [:: mixed; mixed].
Local Notation tr' := [:: translate 0 mixed; translate (row2 F (2 ## 1) (Qmake (Zneg 4) 1)) mixed].
Local Notation cf := (train_conf ges_world gargs tr 0).

Lemma ges_split : split_data (w_shuffle ges_world 42) [seq ges_data k | k <- enum 'I_2] (a_folds gargs) = Ok [:: tr; tr; tr].
Proof.
have -> : [seq ges_data k | k <- enum 'I_2] = [:: ges_data 0; ges_data 1].
  by rewrite enum_ordSl enum_ordSl /= (size0nil (size_enum_ord 0)).
by [].
Qed.
Lemma ges_split' : split_data (w_shuffle ges_world 42) [seq ges_data' k | k <- enum 'I_2] (a_folds gargs) = Ok [:: tr'; tr'; tr'].
Proof.
have -> : [seq ges_data' k | k <- enum 'I_2] = [:: ges_data' 0; ges_data' 1].
  by rewrite enum_ordSl enum_ordSl /= (size0nil (size_enum_ord 0)).
by [].
Qed.

Definition mq (i j : nat) : Q := if Nat.eqb i j then 10 ## 3 else 8 ## 3.
Lemma mixed_cov (i j : 'I_2) : np_cov mixed i j = qF (mq i j).
Proof. rewrite cov_four !mxE; case: i => [[|[|i]] Hi] //; case: j => [[|[|j]] Hj] //; cbn; qfeq. Qed.
Lemma tr_covs k : covs ges_world tr k = np_cov mixed.
Proof. by rewrite /covs; case: k => [[|[|k]] Hk]. Qed.
Lemma tr_covs' k : covs ges_world tr' k = np_cov mixed.
Proof. by rewrite /covs; case: k => [[|[|k]] Hk] //; exact: cov_translate. Qed.
Lemma mixed_posdef : posdef (np_cov mixed).
Proof. by have := dup_posdef log pi h 1; rewrite /covs. Qed.

(** The pooled covariance, from the rows *)
Lemma sum_rows (T : Type) (s : seq T) (f : T -> Q) : \sum_(x <- s) qF (f x) = qF (fold_right (fun x t => Qplus (f x) t) (Qmake Z0 1) s).
Proof. by elim: s => [|x s IH]; rewrite ?big_nil ?big_cons ?IH /= ?qFE // -qF0. Qed.
Definition meanq (f : Q * Q -> Q) (s : seq (Q * Q)) : Q := Qmult (1 ## 8) (fold_right (fun x t => Qplus (f x) t) (Qmake Z0 1) s).
Lemma cov_eight (s : seq (Q * Q)) : size s = 8%N ->
  np_cov [seq row2 F x.1 x.2 | x <- s] 0 1 =
  qF (Qmult (1 ## 7) (fold_right (fun x t => Qplus (Qmult (Qminus x.1 (meanq fst s)) (Qminus x.2 (meanq snd s))) t) (Qmake Z0 1) s)).
Proof.
move=> S8; rewrite /np_cov size_map S8 mxE summxE qFM -sum_rows !big_map; congr (_ * _); first by rewrite (qF_nat F 7) -qFV; apply: qF_eq.
apply: eq_bigr => x _; rewrite mxE big_ord1 mxE.
have M (j : 'I_2) (f : Q * Q -> Q) : (forall y : Q * Q, row2 F y.1 y.2 0 j = qF (f y)) -> (8%:R^-1 *: \sum_(y <- s) row2 F y.1 y.2) 0 j = qF (meanq f s).
  move=> H; rewrite mxE summxE (eq_bigr (fun y => qF (f y))) => [|y _]; last exact: H.
  by rewrite sum_rows /meanq qFM (qF_nat F 8) -qFV; congr (_ * _); apply: qF_eq.
have M0 := M 0 fst ltac:(by move=> y; rewrite mxE); have M1 := M 1 snd ltac:(by move=> y; rewrite mxE).
move: (8%:R^-1 *: \sum_(y <- s) row2 F y.1 y.2) M0 M1 => mu M0 M1; rewrite !mxE M0 M1 /Qminus !qFE.
by [].
Qed.
Lemma row2N a b : - row2 F a b = row2 F (Qopp a) (Qopp b).
Proof. by apply/rowP => j; rewrite !mxE; case: ifP => _; rewrite qFN. Qed.
Lemma row2D a b c d : row2 F a b + row2 F c d = row2 F (Qplus a c) (Qplus b d).
Proof. by apply/rowP => j; rewrite !mxE; case: ifP => _; rewrite qFD. Qed.
Definition fourq : seq (Q * Q) := [:: (2 ## 1, 1 ## 1); (Qopp (2 ## 1), Qopp (1 ## 1)); (1 ## 1, 2 ## 1); (Qopp (1 ## 1), Qopp (2 ## 1))].
Lemma mixedE : mixed = [seq row2 F x.1 x.2 | x <- fourq].
Proof. by rewrite /DupProofs.mixed /four !row2N. Qed.
Lemma pooled : np_cov (flatten tr) 0 1 != 0.
Proof.
have -> : flatten tr = [seq row2 F x.1 x.2 | x <- fourq ++ fourq] by rewrite map_cat -mixedE.
rewrite cov_eight // (qF_eq F (y := 16 ## 7)); last by [].
by rewrite /QFieldProofs.qF mulf_neq0 ?invr_neq0 ?pF_neq0.
Qed.
Lemma pooled' : np_cov (flatten tr') 0 1 = 0.
Proof.
have -> : flatten tr' = [seq row2 F x.1 x.2 | x <- fourq ++ [seq (Qplus x.1 (2 ## 1), Qplus x.2 (Qmake (Zneg 4) 1)) | x <- fourq]].
  by rewrite mixedE /= !row2D !addr0.
by rewrite cov_eight // (qF0 F); apply: qF_eq.
Qed.
Lemma ges_pdags : ges_pdag ges_world.
Proof.
move=> X lambda; rewrite /=; case: ifP => _; split.
- by split=> //; do 3 constructor.
- by move=> [|[|[|i]]] [|[|[|j]]]; first [by left | by right].
- by move=> [|[|[|i]]].
- by right; apply: noedge_acyclic; exact: noedge_edge.
- by split=> //; do 3 constructor.
- by move=> [|[|[|i]]] [|[|[|j]]]; first [by left | by right].
- by move=> [|[|[|i]]].
- by left; exists 0%N, 1%N.
Qed.

(** The run on any of the two data sets *)
Lemma ges_runs data T : (forall k, covs ges_world T k = np_cov mixed) -> (forall k : 'I_2, n_obs T k = 4%N) -> too_small T = false ->
  split_data (w_shuffle ges_world 42) [seq data k | k <- enum 'I_2] (a_folds gargs) = Ok [:: T; T; T] ->
  (exists D, dag01 2 D /\ consistent_ext D (w_ges ges_world (flatten T) (log (size (flatten T))%:R))) ->
  exists am J sc, fit_all ges_world gargs data None true None None 42 = Ok (am, J, sc).
Proof.
move=> HC HN HT ES [D HD]; have [gs [Eg Hg]] := fit_ges_spec T ges_pdags.
have G1 : Forall (graph 2) gs by apply/Forall_forall => D' /Hg [[SD [BD _]] _]; split=> //; apply: binary_nonneg.
have G2 : Forall acyclic gs by apply/Forall_forall => D' /Hg [[_ [_ AD]] _].
have NE : gs <> [::] by move=> E; have : In D gs; [apply/Hg|rewrite E].
have PS k : posdef (cf_sigmas (train_conf ges_world gargs T 0) k) by have := mixed_posdef; rewrite -(HC k).
have PN k : (0 < cf_n_obs (train_conf ges_world gargs T 0) k)%N by move: (HN k); rewrite -[cf_n_obs _ k]/(n_obs T k) => ->.
have SW : some_weight (train_conf ges_world gargs T 0) by apply: weights_some.
have PR k : In k [:: 0%N] -> prunable ges_world gargs true T k by move=> [<-|//] _; split; [exact: SW|].
have := fit_all_total ES (or_intror (conj erefl Eg)) erefl G1 NE ltac:(by []) HT PR.
move=> [[[[am J] sc] E]|[k [m [x [[<-|//] _]]]]]; first by exists am, J, sc.
by move/weights_ok => /(_ _ _ _ PS PN erefl _ erefl _ erefl erefl) H; case: H.
Qed.

(** The scores of the models without an edge, and of a model with an edge that does not come from the cache *)
Lemma fresh_model A rnd m s : graph 2 A -> acyclic A -> fit cf A full None rnd = Ok (m, s) -> exists B,
  [/\ mI_B m = 1%:M - B^T, initialize_B cf A = Ok B, mA m = A, mB m = edge_weights F 2 A & momegas m = initialize_omegas cf B full].
Proof.
move=> GA AA; have [SA NA] := GA.
have PS k : posdef (cf_sigmas cf k) by have := mixed_posdef; rewrite -(tr_covs k).
have PN k : (0 < cf_n_obs cf k)%N by case: k => [[|[|k]] Hk].
have [pm [s' [EI SB ->]]] := @fit_const F 2 0 2 cf A SA NA AA erefl erefl erefl PS PN erefl erefl erefl erefl erefl (edge_weights F 2 A)
  (@weights_supported F 2 A) ltac:(by move=> m' <-) erefl full rnd.
move=> [<- _]; exists (mB pm); move: EI; rewrite /initial_model; case EB : initialize_B => [B|] //=.
by move=> /(new_model_ok SA NA) [_ _ ->].
Qed.
Lemma omegasE B k j : initialize_omegas cf B full k j = ((1%:M - B^T) *m np_cov mixed *m (1%:M - B^T)^T) j j.
Proof.
have M : memb j full = true by case: j => [[|[|j]] Hj].
by rewrite [LHS]mxE M [LHS]mxE -(tr_covs k).
Qed.
Definition value (x : Q) : F := \sum_(k < 2) 4%:R * (- log ((qF (10 ## 3) * qF x)^-1) + 2%:R) / 8%:R ^+ (2 - k).
Lemma scored_value (m : model F 2 0 2) (u v : 'I_2) x : u != v -> (forall k, momegas m k u = qF (10 ## 3) /\ momegas m k v = qF x) ->
  Z.lt Z0 (Qnum x) -> (forall k j, momegas m k j = (mI_B m *m np_cov mixed *m (mI_B m)^T) j j) -> scored ges_world tr m (value x).
Proof.
move=> NE EO X0 ER; have V (y : 'I_2) : y = 0 \/ y = 1 by case: y => [[|[|y]] Hy]; [left|right|]; try exact: ord_inj.
have W (j : 'I_2) : j = u \/ j = v.
  by move: NE; case: (V j) => ->; case: (V u) => ->; case: (V v) => -> // _; by [left|right].
have PO : positive (momegas m).
  move=> k j; have [E1 E2] := EO k; case: (W j) => ->; rewrite ?E1 ?E2 (qF0 F) qF_lt //=.
  by apply/Z.ltb_lt; rewrite /=; lia.
rewrite /scored exact_score // => [|k j]; last by rewrite tr_covs.
congr Ok; have T : (\sum_(i < 2) n_obs tr i)%N = 8%N by rewrite !big_ord_recl big_ord0.
apply: eq_bigr => k _; rewrite T; have -> : n_obs tr k = 4%N by rewrite /n_obs; case: k => [[|[|k]] Hk].
congr (_ * (- log _ + _) / _); rewrite (bigD1 u) //= (bigD1 v) /=; last by rewrite eq_sym.
rewrite bigop.big1 ?mulr1; first by have [-> ->] := EO k; rewrite [RHS]invfM.
by move=> i /andP [N1 N2]; case: (W i) => E; move: N1 N2; rewrite E eqxx.
Qed.

Lemma no_edges_score A rnd m0 s m : graph 2 A -> (forall i j, ~ edge A i j) -> fit cf A full None rnd = Ok (m0, s) ->
  m = m0 \/ copy_model (cf_h cf) m0 = Ok m -> scored ges_world tr m (value (10 ## 3)).
Proof.
move=> GA NA E H; have [SA NN] := GA; have [B [E1 E2 E3 E4 E5]] := fresh_model GA (noedge_acyclic NA) E.
have Z (X : 'M[F]_2) : supported A X -> X = 0.
  by move=> SX; apply/matrixP => i j; rewrite mxE; apply/eqP; apply: contraT => /SX /NA.
have AS : (avg_cov cf)^T = avg_cov cf.
  by have [] : posdef (avg_cov cf) by apply: avg_posdef => // k; [have := mixed_posdef; rewrite -(tr_covs k)|case: k => [[|[|k]] Hk]].
have B0 : B = 0 by apply: Z; have [] := initialize_B_normal AS E2.
have EO k j : momegas m0 k j = qF (10 ## 3).
  rewrite E5 omegasE B0 trmx0 subr0 trmx1 mulmx1 mul1mx mixed_cov /mq Nat.eqb_refl; exact: erefl.
have [I1 I2] : mI_B m = 1%:M /\ momegas m = momegas m0.
  case: H => [->|]; first by rewrite E1 B0 trmx0 subr0.
  rewrite /copy_model E3 => /(new_model_ok SA NN) [_ _ ->] /=; split=> //.
  by rewrite E4 (Z _ (@weights_supported F 2 A)) trmx0 subr0.
apply: (@scored_value m 0 1) => // k; first by rewrite I2 !EO.
by move=> j; rewrite I1 I2 EO trmx1 mulmx1 mul1mx mixed_cov /mq Nat.eqb_refl.
Qed.
Lemma edge_score A u v rnd m s : graph 2 A -> acyclic A -> u != v -> (forall i j : 'I_2, edge A i j <-> i = u /\ j = v) ->
  fit cf A full None rnd = Ok (m, s) -> scored ges_world tr m (value (6 ## 5)).
Proof.
move=> GA AA NE EA E; have [B [E1 E2 E3 E4 E5]] := fresh_model GA AA E.
have AS : (avg_cov cf)^T = avg_cov cf.
  by have [] : posdef (avg_cov cf) by apply: avg_posdef => // k; [have := mixed_posdef; rewrite -(tr_covs k)|case: k => [[|[|k]] Hk]].
have AV : avg_cov cf = np_cov mixed.
  rewrite /avg_cov; have -> : (\sum_(i < 2) cf_n_obs cf i)%N = 8%N by rewrite !big_ord_recl big_ord0.
  rewrite (eq_bigr (fun=> 4%:R *: np_cov mixed)) => [|k _]; last first.
    have -> : cf_n_obs cf k = 4%N by rewrite /= /n_obs; case: k => [[|[|k]] Hk].
    by congr (_ *: _); exact: tr_covs.
  by move: (np_cov mixed) => S; rewrite sumr_const card_ord -scaler_nat !scalerA -natrM mulVf ?scale1r // pnatr_eq0.
have [SB NO] := initialize_B_normal AS E2; have EB := one_supported EA SB.
have NN : Nat.eqb u v = false by apply/Nat.eqb_neq => Q; case/eqP: NE; exact: ord_inj.
have NN' : Nat.eqb v u = false by rewrite Nat.eqb_sym.
have EW : B u v = qF (4 ## 5).
  have := NO u v (proj2 (EA u v) (conj erefl erefl)); rewrite AV mxE (sum2 _ NE) EB ![one_weight _ _ _ _ _]mxE !eqxx (eq_sym v u) (negbTE NE) /= mulr0 addr0.
  rewrite !mixed_cov /mq Nat.eqb_refl NN => H; have N : qF (10 ## 3) != 0 by rewrite /QFieldProofs.qF mulf_neq0 ?invr_neq0 ?pF_neq0.
  apply: (mulfI N); rewrite H; qfeq.
have [R1 R2] := residual NE (qF (4 ## 5)) (np_cov mixed); rewrite EW in EB.
have ER k j : momegas m k j = (mI_B m *m np_cov mixed *m (mI_B m)^T) j j by rewrite E5 omegasE E1.
apply: (@scored_value m u v) => // k; rewrite !ER E1 EB R1 R2 !mixed_cov /mq !Nat.eqb_refl NN NN'; split=> //; qfeq.
Qed.
Lemma value_order : value (6 ## 5) < value (10 ## 3).
Proof.
have L : - log ((qF (10 ## 3) * qF (6 ## 5))^-1) < - log ((qF (10 ## 3) * qF (10 ## 3))^-1).
  have P (x : Q) : Z.lt Z0 (Qnum x) -> 0 < qF x by move=> H; rewrite (qF0 F) qF_lt /=; apply/Z.ltb_lt; lia.
  rewrite ltr_opp2; apply: LM; first by rewrite invr_gt0 mulr_gt0 // P.
  have A1 : 0 < qF (10 ## 3) by exact: P. have A2 : 0 < qF (6 ## 5) by exact: P.
  have A3 : qF (6 ## 5) < qF (10 ## 3) by qflt.
  move: (qF (10 ## 3)) (qF (6 ## 5)) A1 A2 A3 => x y A1 A2 A3.
  by rewrite ltf_pinv ?posrE ?mulr_gt0 // ltr_pmul2l.
rewrite /value; move: L; move: (- log _) (- log _) => y x L; rewrite !big_ord_recl !big_ord0 !addr0.
have M (k : nat) : 4%:R * (x + 2%:R) / 8%:R ^+ k < 4%:R * (y + 2%:R) / 8%:R ^+ k :> F.
  by rewrite ltr_pmul2r ?invr_gt0 ?exprn_gt0 ?ltr0n // ltr_pmul2l ?ltr0n // ltr_add2r.
by rewrite ltr_add.
Qed.

Lemma A2_und2 : dag01 2 A2 /\ consistent_ext A2 und2.
Proof.
have U i j : edge und2 i j <-> (i, j) = (0, 1)%N \/ (i, j) = (1, 0)%N.
  split; last by move=> [] [-> ->].
  by case: i => [|[|[|i]]]; case: j => [|[|[|j]]] H; first [by left | by right | by case: H].
have A i j : edge A2 i j <-> (i, j) = (0, 1)%N by split=> [/A2_edge [-> ->]|[-> ->]].
split.
  by split; [exact: A2_sq | split; [move=> [|[|[|i]]] [|[|[|j]]]; first [by left | by right] | exact: A2_acyclic]].
split; first exact: A2_acyclic.
have P (x y : nat) u v : (x, y) = (u, v) <-> x = u /\ y = v by split=> [[-> ->]|[-> ->]].
split; first by move=> i j; rewrite /adjacent !U !A !P; tauto.
split; last by move=> i j [/U H1 H2]; case: H2; apply/U; case: H1 => [] [-> ->]; [right | left].
move=> i c j; rewrite /vstruct /dir /adjacent !U !A !P; split; first by tauto.
by move=> [[[-> ->] _] [[[-> _] _] [//]]].
Qed.
Lemma und2_extension D : dag01 2 D -> consistent_ext D und2 -> exists u v : 'I_2, u != v /\ forall i j : 'I_2, edge D i j <-> i = u /\ j = v.
Proof.
move=> [SD [BD AD]] [_ [SK _]].
have U i j : edge und2 i j <-> (i, j) = (0, 1)%N \/ (i, j) = (1, 0)%N.
  split; last by move=> [] [-> ->].
  by case: i => [|[|[|i]]]; case: j => [|[|[|j]]] H; first [by left | by right | by case: H].
have V (y : 'I_2) : y = 0 \/ y = 1 by case: y => [[|[|y]] Hy]; [left|right|]; try exact: ord_inj.
have L i : ~ edge D i i by move=> E; apply: (AD i); exact: Relation_Operators.t_step.
have C : ~ (edge D 0 1 /\ edge D 1 0).
  by move=> [E1 E2]; apply: (AD 0%N); apply: (Relation_Operators.t_trans _ _ _ 1%N); exact: Relation_Operators.t_step.
have /SK : adjacent und2 0 1 by left; apply/U; left.
case=> E; [exists 0, 1|exists 1, 0]; split=> // i j; (split=> [|[-> ->]] //); case: (V i) => ->; case: (V j) => -> // E'; by [case: (L _ E')|case: C].
Qed.

Lemma lab_in S L x : In x (lab S L) -> In x.1 L.
Proof. by elim: L S => [|A L IH] S //= [<-|/IH H]; [left | right]. Qed.
Lemma Forall2_in (T U : Type) (R : T -> U -> Prop) l l' y : Forall2 R l l' -> In y l' -> exists x, In x l /\ R x y.
Proof.
elim=> [|a b l1 l2 HR _ IH] //= [<-|/IH [x [H1 H2]]]; first by exists a; split=> //; left.
by exists x; split=> //; right.
Qed.
Lemma none_extension : dag01 2 no_edge2 /\ consistent_ext no_edge2 no_edge2.
Proof.
have AC : acyclic no_edge2 by apply: noedge_acyclic; exact: noedge_edge.
split; first by split; [exact: noedge_sq | split=> // i j; rewrite noedge_get; left].
split=> //; split=> //; split; last by move=> i j [].
by [].
Qed.
Lemma ges_class data am J sc : fit_all ges_world gargs data None true None None 42 = Ok (am, J, sc) ->
  forall seed, exists ic, equivalence_class_w_ges ges_world gargs data seed = Ok (ic, J, am).
Proof.
move=> E seed; have [||t1 [t2 [t3 [gs' [hs [k [v [_ _ _ _ [[[SA NA] AC _ _ _] _ _]]]]]]]]] := fit_all_spec _ _ E => //.
  move=> t gs' _ E'; have [gs2 [E2 H2]] := fit_ges_spec t ges_pdags; move: E2; rewrite E' => -[->].
  by apply/Forall_forall => D /H2 [[SD [BD _]] _]; split=> //; apply: binary_nonneg.
have [M [EM _]] := dag_to_icpdag_spec h 2 _ J SA NA AC.
by rewrite /equivalence_class_w_ges E /= EM; exists M.
Qed.
Lemma spec_graphs : forall t gs', None = None :> option (seq mat) -> fit_ges ges_world t = Ok gs' -> Forall (graph 2) gs'.
Proof.
move=> t gs' _ E'; have [gs2 [E2 H2]] := fit_ges_spec t ges_pdags; move: E2; rewrite E' => -[->].
by apply/Forall_forall => D /H2 [[SD [BD _]] _]; split=> //; apply: binary_nonneg.
Qed.

Lemma centred_edge am J sc : fit_all ges_world gargs ges_data None true None None 42 = Ok (am, J, sc) -> exists i j, edge (mA (projT2 am)) i j.
Proof.
move=> E; have [//||t1 [t2 [t3 [gs [hs [k [v [ES [HI HN] [HL HV _] _ _]]]]]]]] := fit_all_spec _ _ E; first exact: spec_graphs.
have [E1 [E2 E3]] : t1 = tr /\ t2 = tr /\ t3 = tr by move: ES; rewrite ges_split => -[<- <- <-].
case: HI => [//|[_ EG]]; move: HV HL EG; rewrite E1 E2 {ES E1 E2 E3}; move: HN => [<-].
case: am E => h0 m0 E HV [HL _] EG; rewrite [projT1 _]/= in HL; have E0 : h0 = 0%N by case: k HL {HV} => [[]//|[]].
move: m0 E HV; rewrite E0 => m0 E [ms [EP [[m [HM HA HS]] HB]]]; rewrite [projT1 _]/= in EP; rewrite [projT2 _]/= in HA *.
have [gs' [EG' Hg]] := fit_ges_spec tr ges_pdags; move: EG'; rewrite EG => -[EQ]; rewrite -EQ in Hg.
have G1 : Forall (graph 2) gs := spec_graphs erefl EG.
have WG : w_ges ges_world (flatten tr) (w_log ges_world (size (flatten tr))%:R) = und2 by rewrite /= (negbTE pooled).
rewrite WG in Hg; case: gs {EQ} EG Hg G1 EP => [|G gs] EG Hg G1 EP; first by have : In A2 [::] by apply/Hg; exact: A2_und2.
have GG := Forall_inv G1; have [u [v' [NE EA]]] := und2_extension (proj1 (proj1 (Hg G) (or_introl erefl))) (proj2 (proj1 (Hg G) (or_introl erefl))).
have AG : acyclic G by have [[_ []]] := proj1 (Hg G) (or_introl erefl).
move: EP; rewrite /prune_graphs; have -> : iota 0 (length G) = full by case: GG => [[-> _] _].
have ND : no_draws cf by apply: cvx_no_draws.
have := prune_each_outcome ND (w_rnds ges_world k) (w_fuel ges_world) true (s := new_sobj F 2 0 2) (xs := [::]) erefl (memo0 cf) G1.
case EL : (visits cf (w_fuel ges_world) true (G :: gs)) => [L|x]; last by move=> [x' ->].
move=> [s' [ms' [xs' [-> _ _ F2 GL]]]] [EM]; move: F2; rewrite EM => F2 {EM ms'}.
have [L' EQ] := visits_head EL.
have [m1 [H1 [m10 [s1 [D1 /= EM1]]]]] : exists m1, In m1 ms /\ model_at cf (G, false) m1.
  by move: F2; rewrite EQ /= => F2; inversion F2 as [|x y l1 l2 R1 R2]; subst; exists y; split=> //; left.
have S1 : scored ges_world tr m1 (value (6 ## 5)) by rewrite EM1; exact: (edge_score GG AG NE EA D1).
have [y [SY LY]] := HB _ H1; move: LY; have -> : y = value (6 ## 5) by move: SY S1; rewrite /scored => -> -[].
case: (boolP [exists i : 'I_2, exists j : 'I_2, ~~ Z.eqb (get (mA m) i j) Z0]) => [/existsP [i /existsP [j HE]] _|HE].
  by exists i, j; rewrite -HA /edge; apply/Z.eqb_neq; exact: (negbTE HE).
have [x [HX [m20 [s2 [D2 EM2]]]]] : exists x, In x.1 L /\ model_at cf x m.
  by have [x [H R]] := Forall2_in F2 HM; exists x; split=> //; apply: lab_in H.
have GX : graph 2 x.1 by move: GL => /Forall_forall GL; exact: GL.
have AC : acyclic x.1.
  have [SX NX] := GX; case: (is_dag_spec (cf_h cf) 2 x.1 SX NX) => d [_ Hd]; case: d Hd => Hd; first by apply/Hd.
  by move: D2; rewrite /D fit_notdag // => /Hd.
have [_ [_ _ AX _ _]] := fresh_model GX AC D2.
have AM : mA m = x.1 by move: EM2; case: x.2 => [/copy_A ->|->].
have NA i j : ~ edge x.1 i j.
  rewrite -AM => EI; have [SX _] := GX; case/negP: HE; apply/existsP.
  have Hi : (i < 2)%N /\ (j < 2)%N.
    case: (boolP ((i < 2)%N && (j < 2)%N)) => [/andP //|H]; case: EI; apply: (@get_out 2); first by rewrite AM.
    by move=> [/ssrnat.ltP Hi /ssrnat.ltP Hj]; rewrite Hi Hj in H.
  exists (Ordinal Hi.1); apply/existsP; exists (Ordinal Hi.2); apply/negP => /Z.eqb_eq; exact: EI.
have SM : scored ges_world tr m (value (10 ## 3)).
  apply: (no_edges_score GX NA D2); by move: EM2; case: x.2; [right | left].
by move: HS SM; rewrite /scored => -> [->]; rewrite leNgt value_order.
Qed.

Lemma shifted_none am J sc : fit_all ges_world gargs ges_data' None true None None 42 = Ok (am, J, sc) -> forall i j, ~ edge (mA (projT2 am)) i j.
Proof.
move=> E i j; have [//||t1 [t2 [t3 [gs [hs [k [v [ES [HI _] _ [G HG HS] _]]]]]]]] := fit_all_spec _ _ E; first exact: spec_graphs.
have E1 : t1 = tr' by move: ES; rewrite ges_split' => -[<-].
case: HI => [//|[_ EG]]; move: EG; rewrite E1 => EG; have [gs' [EG' Hg]] := fit_ges_spec tr' ges_pdags; move: EG'; rewrite EG => -[EQ]; rewrite -EQ in Hg.
have [_ [_ [SK _]]] := proj1 (Hg G) HG.
move=> /HS EI; have /SK : adjacent G i j by left.
rewrite /= pooled' eqxx; case; exact: noedge_edge.
Qed.

(** Both calls return; the data sets differ in the mean of the second environment *)
Lemma ges_refuted seed : exists r r',
  [/\ equivalence_class_w_ges ges_world gargs ges_data seed = Ok r, equivalence_class_w_ges ges_world gargs ges_data' seed = Ok r',
      exists i j, edge (mA (projT2 r.2)) i j & forall i j, ~ edge (mA (projT2 r'.2)) i j].
Proof.
have [am [J [sc E]]] : exists am J sc, fit_all ges_world gargs ges_data None true None None 42 = Ok (am, J, sc).
  apply: (@ges_runs ges_data tr) => //; [exact: tr_covs | by case=> [[|[|k]] Hk] | exact: ges_split | ].
  by exists A2; rewrite /= (negbTE pooled); exact: A2_und2.
have [am' [J' [sc' E']]] : exists am J sc, fit_all ges_world gargs ges_data' None true None None 42 = Ok (am, J, sc).
  apply: (@ges_runs ges_data' tr') => //; [exact: tr_covs' | by case=> [[|[|k]] Hk] | exact: ges_split' | ].
  by exists no_edge2; rewrite /= pooled' eqxx; exact: none_extension.
have [ic EC] := ges_class E seed; have [ic' EC'] := ges_class E' seed.
by exists (ic, J, am), (ic', J', am'); split=> //; [exact: centred_edge E | exact: shifted_none E'].
Qed.
Lemma means_matter : exists (w : world F 2 2) (a : args F) data c,
  [/\ w_log w = log /\ w_pi w = pi, [/\ w_h w = h, moves_rows w & forall X, w_cov w X = np_cov X],
      ges_pdag w /\ (forall X Y lambda, np_cov X = np_cov Y -> w_ges w X lambda = w_ges w Y lambda)
    & forall seed, exists r r',
      [/\ equivalence_class_w_ges w a data seed = Ok r, equivalence_class_w_ges w a (fun k => translate (c k) (data k)) seed = Ok r',
          exists i j, edge (mA (projT2 r.2)) i j & forall i j, ~ edge (mA (projT2 r'.2)) i j]].
Proof.
exists ges_world, gargs, ges_data, ges_shift; split=> //; last exact: ges_refuted.
  by split; [exact: ges_pdags | move=> X Y lambda EC; rewrite /= EC].
Qed.
End GesMean.

(** Lemmas on the Model class. *)
From Coq Require Import ZArith Lia Relations.
From mathcomp Require Import all_ssreflect all_algebra all_fingroup.
From Verif Require Import Base GraphModel GraphSpec TopoProofs NumModel NumSpec LinAlgProofs.
Set Implicit Arguments.
Unset Strict Implicit.
Unset Printing Implicit Defensive.
Import Order.Theory GRing.Theory Num.Theory.
Local Open Scope ring_scope.

Section NumProofs.
Variables (F : realFieldType) (log : F -> F) (h : hord) (p l e : nat).
Local Notation model := (model F p l e).

Lemma respectsP (A : mat) (B : 'M[F]_p) : reflect (supported A B) (respects A B).
Proof.
apply: (iffP forallP) => H i.
  move=> j N; have /forallP /(_ j) := H i => /implyP Q E.
  by move: N; rewrite (eqP (Q _)) ?eqxx // E.
by apply/forallP => j; apply/implyP => /Z.eqb_eq E; apply: contraT => N; case: (H i j N).
Qed.

Lemma new_model_spec A (B : 'M[F]_p) (g : 'M[F]_(l, p)) (o : 'M[F]_(e, p)) (s : 'M[F]_(e, l)) :
  square p A -> nonneg A ->
  (acyclic A /\ supported A B /\ new_model h A B g o s = Ok (MkModel A B g o s (1%:M - B^T))) \/
  (~ (acyclic A /\ supported A B) /\ new_model h A B g o s = Err ValueError).
Proof.
move=> SA NA; rewrite /new_model; have -> : length A = p by case: SA.
rewrite eqxx /=; case: (is_dag_spec h p A SA NA) => d [-> Hd] /=.
case: d Hd => Hd /=; last by right; split=> // -[/Hd].
case: (respectsP A B) => HB /=; last by right; split=> // -[].
by left; split; [apply/Hd | split].
Qed.

Lemma new_model_ok A (B : 'M[F]_p) (g : 'M[F]_(l, p)) (o : 'M[F]_(e, p)) (s : 'M[F]_(e, l)) m :
  square p A -> nonneg A -> new_model h A B g o s = Ok m ->
  [/\ acyclic A, supported A B & m = MkModel A B g o s (1%:M - B^T)].
Proof.
move=> SA NA; case: (new_model_spec B g o s SA NA) => [[HA [HB ->]]|[_ ->]] //.
by case=> <-.
Qed.

Lemma mnoise_posdef (m : model) i : positive (momegas m) -> (forall a b, 0 <= mpsis m a b) -> posdef (mnoise m i).
Proof. by move=> Ho Hp; apply: posdef_noise => j; rewrite mxE. Qed.

Lemma inv_noise_ok (m : model) : positive (momegas m) -> (forall a b, 0 <= mpsis m a b) ->
  inv_noise m = Ok (fun i => invmx (mnoise m i)).
Proof.
move=> Ho Hp; rewrite /inv_noise; case: forallP => // H; case: H => i.
exact/posdef_unit/mnoise_posdef.
Qed.

(** The value of score: the division by sum(n_obs) happens once per remaining environment. *)
Lemma foldl_div (T : Type) (f : T -> F) (t a : F) r x0 :
  foldl (fun s i => (s + f i) / t) a r =
  a / t ^+ size r + \sum_(k < size r) f (nth x0 r k) / t ^+ (size r - k).
Proof.
elim: r a => [|x r IH] a /=; first by rewrite big_ord0 expr0 divr1 addr0.
rewrite IH big_ord_recl /= subn0 addrA; congr (_ + _).
by rewrite exprS invfM -mulrA mulrDl.
Qed.

Lemma score_value (m : model) sigmas n_obs : positive (momegas m) -> (forall a b, 0 <= mpsis m a b) ->
  score log m sigmas n_obs = Ok (\sum_(i < e) (n_obs i)%:R *
     (- log (\det (invmx (mnoise m i))) + \tr (invmx (mnoise m i) *m (mI_B m *m sigmas i *m (mI_B m)^T)))
     / (\sum_i n_obs i)%N%:R ^+ (e - i)).
Proof.
move=> Ho Hp; rewrite /score inv_noise_ok //=; congr Ok.
case: e m sigmas n_obs Ho Hp => [|e'] m sigmas n_obs Ho Hp.
  by rewrite !big_ord0 (size0nil (size_enum_ord 0)).
rewrite (foldl_div _ _ _ _ ord0) mul0r add0r size_enum_ord; apply: eq_bigr => i _.
by rewrite nth_ord_enum.
Qed.

(** C60 *)
Lemma covariances_spec A (B : 'M[F]_p) (g : 'M[F]_(l, p)) (o : 'M[F]_(e, p)) (s : 'M[F]_(e, l)) m :
  square p A -> nonneg A -> new_model h A B g o s = Ok m ->
  \det (1%:M - B^T) = 1 /\
  exists Sigma, covariances m = Ok Sigma /\ forall i,
    (1%:M - B^T) *m Sigma i *m (1%:M - B^T)^T = g^T *m diag_mx (row i s) *m g + diag_mx (row i o) /\
    (Sigma i)^T = Sigma i /\
    forall X, (1%:M - B^T) *m X *m (1%:M - B^T)^T = g^T *m diag_mx (row i s) *m g + diag_mx (row i o) -> X = Sigma i.
Proof.
move=> SA NA /new_model_ok [] // HA HB ->.
have D1 := det_sub_dag HA HB; split=> //.
have U : 1%:M - B^T \in unitmx by rewrite unitmxE D1 unitr1.
rewrite /covariances /mnoise /= U; eexists; split; first by [].
move=> i; set Q := 1%:M - B^T in U D1 *; set N := noise_cov _ _ _ _.
have UT : Q^T \in unitmx by rewrite unitmx_tr.
rewrite -[_ + _]/(noise_cov g o s i) -/N; split.
  by rewrite !mulmxA mulmxV // mul1mx -mulmxA trmx_inv mulVmx ?mulmx1.
split.
  rewrite !trmx_mul trmxK mulmxA; congr (_ *m _ *m _).
  by rewrite linearD /= !trmx_mul trmxK !tr_diag_mx mulmxA.
move=> X <-; rewrite trmx_inv !mulmxA mulVmx // mul1mx -mulmxA mulmxV ?mulmx1 //.
Qed.

(** C61 *)
Lemma model_posdef A (B : 'M[F]_p) (g : 'M[F]_(l, p)) (o : 'M[F]_(e, p)) (s : 'M[F]_(e, l)) m sigmas n_obs :
  square p A -> nonneg A -> new_model h A B g o s = Ok m -> positive o -> (forall a b, 0 <= s a b) ->
  (forall i, posdef (noise_cov g o s i)) /\
  (exists Ms, inv_noise m = Ok Ms /\
     forall i, posdef (Ms i) /\ 0 < \det (Ms i) /\ Ms i *m noise_cov g o s i = 1%:M) /\
  (exists Sigma, covariances m = Ok Sigma /\ forall i, posdef (Sigma i)) /\
  exists x, score log m sigmas n_obs = Ok x.
Proof.
move=> SA NA E Ho Hp; have [HA HB Em] := new_model_ok SA NA E.
have P i : posdef (noise_cov g o s i) by have := @mnoise_posdef m i; rewrite Em; apply.
split=> //; split.
  exists (fun i => invmx (mnoise m i)); split; first by apply: inv_noise_ok; rewrite Em.
  move=> i; have Q : posdef (invmx (mnoise m i)) by apply: posdef_inv; rewrite Em; apply: P.
  split=> //; split; first exact: posdef_det.
  by rewrite Em /mnoise /= mulVmx //; apply: posdef_unit.
split.
  have U : 1%:M - B^T \in unitmx by rewrite unitmxE (det_sub_dag HA HB) unitr1.
  rewrite /covariances Em /= U; eexists; split; first by [].
  by move=> i; apply: posdef_congr; [rewrite unitmx_inv | apply: P].
by eexists; apply: score_value; rewrite Em.
Qed.

(** C68 *)
Lemma foldl_max_in (a : F) r : foldl Order.max a r \in a :: r.
Proof.
elim: r a => [|x r IH] a /=; first by rewrite mem_head.
have := IH (Order.max a x); rewrite !inE maxEle; case: ifP => _.
  by move=> H; rewrite H orbT.
by case/orP=> ->; rewrite ?orbT.
Qed.

Lemma col_max_gt0 (X : 'M[F]_(e, p)) j : (0 < e)%N -> positive X -> 0 < col_max X j.
Proof.
rewrite /col_max => He HX.
have : foldl Order.max (seq.head 0 [seq X i j | i <- enum 'I_e]) (behead [seq X i j | i <- enum 'I_e])
       \in [seq X i j | i <- enum 'I_e].
  case E: [seq X i j | i <- enum 'I_e] => [|x r] /=; last exact: foldl_max_in.
  by have := size_map (fun i => X i j) (enum 'I_e); rewrite E size_enum_ord => He0; rewrite -He0 in He.
by case/mapP => i _ ->.
Qed.

Lemma intervention_strength_spec (m : model) j : (0 < e)%N -> positive (momegas m) ->
  0 <= intervention_strength m j /\ (intervention_strength m j = 0 <-> const_col (momegas m) j).
Proof.
move=> He HX; have M0 := col_max_gt0 j He HX; rewrite /intervention_strength.
have eF : (e%:R : F) != 0 by rewrite pnatr_eq0 -lt0n.
have S0 : 0 <= \sum_i (momegas m i j - col_mean (momegas m) j) ^+ 2 by apply: sumr_ge0 => i _; apply: sqr_ge0.
have V0 : 0 <= col_var (momegas m) j by apply: divr_ge0 => //; apply: ler0n.
split; first by apply: divr_ge0 => //; apply: ltW.
split=> [/eqP|H].
  rewrite mulf_eq0 invr_eq0 (gt_eqF M0) orbF mulf_eq0 invr_eq0 (negbTE eF) orbF => /eqP S.
  have Q i : momegas m i j = col_mean (momegas m) j.
    apply/eqP; rewrite -subr_eq0 -sqrf_eq0; apply/eqP.
    move/eqP: S; rewrite psumr_eq0; last by move=> k _; apply: sqr_ge0.
    by move=> /allP /(_ i (mem_index_enum _)) /= /eqP.
  by move=> i i'; rewrite !Q.
rewrite /col_var big1 ?mul0r // => i _.
have -> : col_mean (momegas m) j = momegas m i j.
  rewrite /col_mean (eq_bigr (fun=> momegas m i j)) => [|k _]; last exact: H.
  by rewrite sumr_const card_ord -[_ *+ e]mulr_natr mulfK.
by rewrite subrr expr0n.
Qed.
End NumProofs.

(** C62: two environments, one variable *)
Definition A1 : mat := cons (cons Z0 nil) nil.
Lemma A1_sq : square 1 A1.
Proof. by split=> //; do 2 constructor. Qed.
Lemma A1_nonneg : nonneg A1.
Proof. by move=> [|[|i]] [|[|j]] //=; lia. Qed.
Lemma A1_acyclic : acyclic A1.
Proof.
move=> i; have H x y : ~ edge A1 x y by case: x => [|[|x]]; case: y => [|[|y]]; apply.
by move=> C; apply Operators_Properties.clos_trans_t1n in C; case: C => [y|y z] E; case: (H _ _ E).
Qed.

Lemma score_order (F : realFieldType) (log : F -> F) (h : hord) :
  exists (m m' : model F 1 0 2) (o : 'M[F]_(2, 1)) (s : 'M[F]_(2, 0)) (sigmas : 'I_2 -> 'M[F]_1) (n : 'I_2 -> nat)
         (t : 'S_2) (x y : F),
    [/\ positive o, (forall i, posdef (sigmas i)) & (forall i, (0 < n i)%N)] /\
    [/\ new_model h A1 0 0 o s = Ok m, new_model h A1 0 0 (row_perm t o) (row_perm t s) = Ok m',
        score log m sigmas n = Ok x, score log m' (sigmas \o t) (n \o t) = Ok y & x <> y].
Proof.
have P1 (a : F) : 0 < a -> posdef (a%:M : 'M[F]_1).
  move=> Ha; split; first by rewrite tr_scalar_mx.
  move=> v Nv; rewrite mul_mx_scalar -scalemxAl mxE; apply: mulr_gt0 => //.
  rewrite mxE big_ord1 mxE -expr2 exprn_even_gt0 //=; apply: contra Nv => /eqP V0.
  by apply/eqP/matrixP => i j; rewrite !ord1 V0 mxE.
pose o : 'M[F]_(2, 1) := const_mx 1; pose s : 'M[F]_(2, 0) := 0.
pose sg (i : 'I_2) : 'M[F]_1 := (if i == 0 then 1 else 2%:R)%:M.
pose t : 'S_2 := tperm 0 1; pose n (i : 'I_2) : nat := 1%N.
have O : positive o by move=> i j; rewrite mxE ltr01.
have S a b : 0 <= s a b by case: b.
have Ep : row_perm t o = o by apply/matrixP => i j; rewrite !mxE.
have Es : row_perm t s = s by apply/matrixP => i [].
have SP : supported A1 (0 : 'M[F]_1) by move=> i j; rewrite mxE eqxx.
pose m : model F 1 0 2 := MkModel A1 0 0 o s (1%:M - (0 : 'M[F]_1)^T).
have Em : new_model h A1 0 0 o s = Ok m.
  case: (new_model_spec h (0 : 'M[F]_1) (0 : 'M[F]_(0, 1)) o s A1_sq A1_nonneg) => [[_ [_ ->]]//|[]].
  by case; split=> //; apply: A1_acyclic.
have EN i : mnoise m i = 1%:M.
  rewrite /mnoise /noise_cov /= mulmx0 add0r; apply/matrixP => a b; rewrite !ord1 !mxE eqxx //.
pose c := - log (\det (invmx (1%:M : 'M[F]_1))).
have V (q : 'I_2 -> 'M[F]_1) : score log m q n = Ok ((c + q 0 0 0) / 4%:R + (c + q 1 0 0) / 2%:R).
  rewrite score_value //; congr Ok; rewrite big_ord_recl big_ord1 !EN.
  have -> : (\sum_i n i)%N = 2%N by rewrite !big_ord_recl big_ord0.
  have T (X : 'M[F]_1) : \tr (invmx (1%:M : 'M[F]_1) *m (mI_B m *m X *m (mI_B m)^T)) = X 0 0.
    by rewrite /= trmx0 subr0 trmx1 invmx1 !mul1mx mulmx1 /mxtrace big_ord1.
  rewrite !T !mul1r /= subn0 expr1; congr (_ / _ + (_ + q _ _ _) / _); last by apply/val_inj.
  by rewrite -natrX.
exists m, m, o, s, sg, n, t, ((c + sg 0 0 0) / 4%:R + (c + sg 1 0 0) / 2%:R),
  ((c + sg 1 0 0) / 4%:R + (c + sg 0 0 0) / 2%:R).
split.
  split=> // i; apply: P1; case: ifP => _; [exact: ltr01 | exact: ltr0n].
split=> //; first by rewrite Ep Es.
  by rewrite (V (sg \o t)) /= tpermL tpermR.
rewrite /sg /= !mxE !eqxx !mulr1n => E.
have K (u v w x : F) : u + v = w + x -> v - x = w - u.
  by move=> Q; apply/eqP; rewrite subr_eq addrAC eq_sym subr_eq -Q addrC.
have D : (c + 2%:R) - (c + 1) = 1 :> F by rewrite opprD addrACA subrr add0r -[2%:R]/(1 + 1) addrK.
move/K: E; rewrite -!mulrBl D !mul1r => /invr_inj /eqP.
by rewrite eqr_nat.
Qed.

Lemma copy_model_spec (F : realFieldType) (h : hord) p l e A (B : 'M[F]_p) (g : 'M[F]_(l, p)) (o : 'M[F]_(e, p)) (s : 'M[F]_(e, l)) m
  (B' : 'M[F]_p) (g' : 'M[F]_(l, p)) (o' : 'M[F]_(e, p)) (s' : 'M[F]_(e, l)) :
  square p A -> nonneg A -> new_model h A B g o s = Ok m -> supported A B' ->
  copy_model h (MkModel (mA m) B' g' o' s' (mI_B m)) = Ok (MkModel A B' g' o' s' (1%:M - B'^T)).
Proof.
move=> SA NA /new_model_ok [] // HA _ -> SB; rewrite /copy_model /=.
by case: (new_model_spec h B' g' o' s' SA NA) => [[_ [_ ->]]|[[]]].
Qed.

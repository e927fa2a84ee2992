(** The reversal of a covered edge of a model: the entailed covariances do not change. *)
From Coq Require Import ZArith.
From mathcomp Require Import all_ssreflect all_algebra.
From Verif Require Import Base FieldTac GraphSpec NumSpec GradSpec OptSpec GraphModel NumModel LinAlgProofs NumProofs GradProofs.
From Verif Require Import CoveredProofs Max3Proofs.
Set Implicit Arguments.
Unset Strict Implicit.
Unset Printing Implicit Defensive.
Import Order.Theory GRing.Theory Num.Theory.
Local Open Scope ring_scope.

Lemma invmxM (F : realFieldType) n (A B : 'M[F]_n) : A \in unitmx -> B \in unitmx -> invmx (A *m B) = invmx B *m invmx A.
Proof.
move=> uA uB; have uAB : A *m B \in unitmx by rewrite unitmx_mul uA.
apply: (can_inj (mulmxK uAB)); rewrite mulVmx // !mulmxA -[_ *m invmx A *m A]mulmxA mulVmx // mulmx1 mulVmx //.
Qed.

Section Step.
Variables (F : realFieldType) (p : nat) (x y : 'I_p).
Hypothesis N : x != y.
Variables (b c : F).
Add Field ffE : (fieldT F).

Definition turn : 'M[F]_p := (1%:M - c *: delta_mx x y) *m (1%:M + b *: delta_mx y x).

Lemma delta_mulE n (X : 'M[F]_(p, n)) (i j u : 'I_p) k : (delta_mx i j *m X) u k = if u == i then X j k else 0.
Proof.
rewrite mxE (bigD1 j) //= big1 => [|v /negbTE V]; last by rewrite mxE V andbF mul0r.
by rewrite mxE eqxx andbT addr0; case: eqP => _; rewrite ?mul1r ?mul0r.
Qed.

Lemma elemE n (X : 'M[F]_(p, n)) (i j u : 'I_p) (z : F) k :
  ((1%:M + z *: delta_mx i j) *m X) u k = X u k + z * (if u == i then X j k else 0).
Proof. by rewrite mulmxDl mul1mx -scalemxAl [LHS]mxE [X in _ + X]mxE delta_mulE. Qed.

Lemma turnE n (X : 'M[F]_(p, n)) u k : (turn *m X) u k =
  if u == y then X y k + b * X x k else if u == x then X x k - c * (X y k + b * X x k) else X u k.
Proof.
have E1 v : ((1%:M + b *: delta_mx y x) *m X) v k = if v == y then X y k + b * X x k else X v k.
  rewrite mulmxDl mul1mx -scalemxAl [LHS]mxE [X in _ + X]mxE delta_mulE.
  by case: eqP => [->|_]; rewrite ?mulr0 ?addr0.
rewrite /turn -mulmxA mulmxBl mul1mx -scalemxAl [LHS]mxE [X in _ + X]mxE [X in _ - X]mxE delta_mulE !E1 eqxx.
case: (altP (u =P y)) => [->|_]; first by rewrite eq_sym (negbTE N) mulr0 subr0.
by case: eqP => [->|_]; rewrite ?mulr0 ?subr0.
Qed.

Lemma turn_unit : turn \in unitmx.
Proof.
have U (i j : 'I_p) (z : F) : i != j -> (1%:M : 'M[F]_p) + z *: delta_mx i j \in unitmx.
  move=> ij; have : (1%:M + z *: delta_mx i j) *m (1%:M - z *: delta_mx i j) = 1%:M.
    apply/matrixP => u k; rewrite elemE !mxE.
    case: (altP (u =P i)) => [->|nu]; last by rewrite andFb !mulr0 subr0 addr0.
    rewrite (eq_sym j i) (negbTE ij) andFb mulr0 subr0 andTb eq_sym.
    by rewrite (eq_sym k j) addrNK.
  by move/mulmx1_unit => [].
by rewrite unitmx_mul -scaleNr !U // eq_sym.
Qed.

(** The noise variances after the reversal *)
Variables (wx wy : F).
Hypothesis V : wy + b * b * wx != 0.
Hypothesis C : c = b * wx / (wy + b * b * wx).
Lemma turn_diag (d d' : 'rV[F]_p) : d 0 x = wx -> d 0 y = wy ->
  (forall k, d' 0 k = if k == y then wy + b * b * wx else if k == x then wx * wy / (wy + b * b * wx) else d 0 k) ->
  turn *m diag_mx d *m turn^T = diag_mx d'.
Proof.
move=> dx dy D'.
have -> : turn *m diag_mx d *m turn^T = turn *m (turn *m diag_mx d)^T by rewrite [(turn *m diag_mx d)^T]trmx_mul tr_diag_mx mulmxA.
have NT : (y == x) = false by rewrite eq_sym (negbTE N).
have Hc : c * (wy + b * b * wx) = b * wx by rewrite C divfK.
have Hw : wx * wy / (wy + b * b * wx) = wx - c * (b * wx).
  apply: (mulIf V); rewrite divfK // mulrBl [c * _ * _]mulrAC Hc; move: (b) (wx) (wy) => b' x' y'; rg F.
apply/matrixP => u k; rewrite turnE ![(_ *m _)^T _ _]mxE !turnE.
have DD a a' : diag_mx d a a' = if a == a' then d 0 a else 0 by rewrite mxE; case: eqP => _; rewrite ?mulr1n ?mulr0n.
have -> : diag_mx d' u k = if u == k then d' 0 u else 0 by rewrite mxE; case: eqP => _; rewrite ?mulr1n ?mulr0n.
rewrite !DD D' Hw !eqxx (negbTE N) NT.
case: (altP (u =P y)) => [->|uy]; [|case: (altP (u =P x)) => [->|ux]];
  (case: (altP (k =P y)) => [->|ky]; [|case: (altP (k =P x)) => [->|kx]]);
  rewrite ?eqxx ?(negbTE N) ?NT ?(eq_sym y) ?(eq_sym x) ?(negbTE ky) ?(negbTE kx) ?(negbTE uy) ?(negbTE ux) ?dx ?dy;
  rewrite ?mulr0 ?addr0 ?subr0 ?add0r //.
- by move: (b) (wx) (wy) => b' x' y'; rg F.
- have -> : - (c * wy) + b * (wx - c * (b * wx)) = b * wx - c * (wy + b * b * wx).
    by move: (b) (c) (wx) (wy) => b' c' x' y'; rg F.
  by rewrite Hc subrr.
- by rewrite [b * (b * wx)]mulrA Hc subrr.
- have -> : - (c * wy) + b * (wx - c * (b * wx)) = b * wx - c * (wy + b * b * wx).
    by move: (b) (c) (wx) (wy) => b' c' x' y'; rg F.
  by rewrite Hc subrr mulr0 subr0.
- by rewrite mulr0 oppr0.
- by rewrite mulr0 oppr0.
by rewrite eq_sym; case: eqP => // ->.
Qed.
End Step.

Section Reverse.
Variables (F : realFieldType) (p l e : nat) (G : mat) (x y : 'I_p).
Hypotheses (SG : square p G) (AG : acyclic G) (CG : covered G x y).
Variables (B : 'M[F]_p) (g : 'M[F]_(l, p)) (o : 'M[F]_(e.+1, p)) (s : 'M[F]_(e.+1, l)).
Hypotheses (SB : supported G B) (Po : positive o) (cx : const_col o x) (cy : const_col o y).

Let nn : (nat_of_ord x < p)%coq_nat /\ (nat_of_ord y < p)%coq_nat /\ nat_of_ord x <> nat_of_ord y.
Proof. exact: covered_lt SG AG CG. Qed.
Let N : x != y. Proof. by case: nn => _ [_ n]; apply: contra_notN n => /eqP ->. Qed.

Let wx := o 0 x.
Let wy := o 0 y.
Let b := B x y.
Let v := wy + b * b * wx.
Let c := b * wx / v.
Let Q := turn x y b c.
Definition B_rev : 'M[F]_p := (1%:M - Q *m (1%:M - B^T))^T.
Definition g_rev : 'M[F]_(l, p) := g *m Q^T.
Definition o_rev : 'M[F]_(e.+1, p) := \matrix_(i, k) (if k == y then v else if k == x then wx * wy / v else o i k).

Let v0 : 0 < v.
Proof. by apply: ltr_paddr; [apply: mulr_ge0; [rewrite -expr2 sqr_ge0 | exact/ltW/Po] | exact: Po]. Qed.

Lemma I_rev : 1%:M - B_rev^T = Q *m (1%:M - B^T).
Proof. by rewrite /B_rev trmxK opprB addrC subrK. Qed.

Lemma noise_rev i : noise g_rev o_rev s i = Q *m noise g o s i *m Q^T.
Proof.
rewrite !noiseE /noise_cov mulmxDr mulmxDl; congr (_ + _).
  by rewrite /g_rev trmx_mul trmxK !mulmxA.
rewrite (turn_diag N (lt0r_neq0 v0) (erefl _) (d' := row i o_rev)) //.
- by rewrite mxE; apply: cx.
- by rewrite mxE; apply: cy.
by move=> k; rewrite !mxE.
Qed.

Lemma o_rev_positive : positive o_rev.
Proof.
move=> i k; rewrite mxE; case: eqP => _; first exact: v0.
by case: eqP => _; rewrite ?divr_gt0 ?mulr_gt0 //; apply: Po.
Qed.

Lemma o_rev_const k : const_col o k -> const_col o_rev k.
Proof. by move=> H i i'; rewrite !mxE (H i i'). Qed.

Lemma B_rev_supported : supported (reverse G x y) B_rev.
Proof.
have [Hx [Hy Hn]] := nn; have [Exy Cov] := CG.
have Z0 i j : ~ edge G (nat_of_ord i) (nat_of_ord j) -> B i j = 0.
  by move=> H; apply/eqP; apply: contra_notT H => /SB.
have NT : (y == x) = false by rewrite eq_sym; apply: negbTE.
have Bxx : B x x = 0 by apply: Z0; exact: (TopoProofs.acyclic_loopless G AG).
have Byy : B y y = 0 by apply: Z0; exact: (TopoProofs.acyclic_loopless G AG).
move=> k u H; apply/(reverse_edge p G x y k u SG Hx Hy Hn); move: H.
have -> : B_rev k u = (u == k)%:R - (Q *m (1%:M - B^T)) u k.
  by rewrite /B_rev mxE mxE [X in X + _]mxE [X in _ + X]mxE.
rewrite (turnE N) !mxE.
case: (altP (u =P y)) => [->|uy]; [|case: (altP (u =P x)) => [->|ux]].
- case: (altP (k =P x)) => [->|kx].
    by rewrite eqxx NT Bxx !sub0r subr0 mulr1 addNr oppr0 eqxx.
  have kx' : nat_of_ord k <> x by move=> E; case/eqP: kx; apply: val_inj.
  case: (TopoProofs.edge_dec G k y) => Ek; first by move=> _; right; split=> // -[].
  have Ex : ~ edge G k x by move=> E; apply: Ek; apply/Cov; left.
  by rewrite (Z0 _ _ Ek) (Z0 _ _ Ex) (eq_sym x) (negbTE kx) !subr0 mulr0 addr0 subrr eqxx.
- case: (altP (k =P y)) => [->|ky]; first by left.
  case: (altP (k =P x)) => [->|kx].
    by rewrite eqxx NT Bxx !sub0r subr0 mulr1 addNr mulr0 subr0 subrr eqxx.
  have kx' : nat_of_ord k <> x by move=> E; case/eqP: kx; apply: val_inj.
  case: (TopoProofs.edge_dec G k x) => Ek; first by move=> _; right; split=> // -[].
  have Ey : ~ edge G k y by move/Cov => [].
  by rewrite (Z0 _ _ Ek) (Z0 _ _ Ey) (eq_sym x) (negbTE kx) (eq_sym y) (negbTE ky) !subr0 mulr0 addr0 mulr0 !subr0 eqxx.
rewrite subKr => /SB E; right; split=> // -[_ Eu].
by case/eqP: uy; apply: val_inj.
Qed.

Lemma entailed_rev i : entailed B_rev g_rev o_rev s i = entailed B g o s i.
Proof.
have uQ : Q \in unitmx by apply: turn_unit.
have uR : 1%:M - B^T \in unitmx by rewrite unitmxE (det_sub_dag AG SB) unitr1.
have E : invmx (1%:M - B_rev^T) *m Q = invmx (1%:M - B^T).
  by rewrite I_rev invmxM // -mulmxA mulVmx // mulmx1.
rewrite /entailed noise_rev -E; set J := invmx (1%:M - B_rev^T).
by rewrite [(J *m Q)^T]trmx_mul !mulmxA.
Qed.
End Reverse.

(** [B'], [gamma'], [omegas'] have the support D, and the same invariant variables and covariances. *)
Definition mimics (F : realFieldType) (p l e : nat) (I : list nat) (D : mat) (B : 'M[F]_p) (g : 'M[F]_(l, p))
  (o : 'M[F]_(e, p)) (s : 'M[F]_(e, l)) : Prop :=
  exists B' g' (o' : 'M[F]_(e, p)),
  [/\ supported D B', positive o', forall j : 'I_p, ~ List.In (nat_of_ord j) I -> const_col o' j,
      forall (i : 'I_e) (j : 'I_p), List.In (nat_of_ord j) I -> o' i j = o i j &
      forall i, entailed B' g' o' s i = entailed B g o s i].

Lemma equivalent_mimics (F : realFieldType) (p l e : nat) (I : list nat) G D (B : 'M[F]_p) (g : 'M[F]_(l, p))
  (o : 'M[F]_(e, p)) (s : 'M[F]_(e, l)) :
  square p G -> acyclic G -> square p D -> acyclic D -> imarkov_equiv I G D ->
  supported G B -> positive o -> (forall j : 'I_p, ~ List.In (nat_of_ord j) I -> const_col o j) -> mimics I D B g o s.
Proof.
case: e o s => [|e'] o s SG AG SD AD EQ.
  move=> _ _ _; exists 0, 0, 0; split; [by move=> i j; rewrite mxE eqxx | by case | by move=> ? ? [] | by case | by case].
move: B g o s.
apply: (covered_ind p I D (fun G => forall (B : 'M[F]_p) (g : 'M[F]_(l, p)) (o : 'M[F]_(e'.+1, p)) (s : 'M[F]_(e'.+1, l)), 
  supported G B -> positive o -> (forall j : 'I_p, ~ List.In (nat_of_ord j) I -> const_col o j) -> mimics I D B g o s) SD AD _ _ G SG AG EQ).
  move=> G' _ E B g o s SB Po Co; exists B, g, o; split=> // i j /SB Eij; exact/E.
move=> {SG AG EQ} G' x y SG AG CG Nx Ny IH B g o s SB Po Co.
have [/ssrnat.ltP Hx [/ssrnat.ltP Hy _]] := covered_lt p G' x y SG AG CG.
pose x' := Ordinal Hx; pose y' := Ordinal Hy.
have CG' : covered G' x' y' by [].
have cx : const_col o x' by apply: Co.
have cy : const_col o y' by apply: Co.
have [||| B1 [g1 [o1 [S1 P1 C1 E1 En]]]] := IH (B_rev x' y' B o) (g_rev x' y' B g o) (o_rev x' y' B o) s.
- exact: (B_rev_supported SG AG CG').
- exact: o_rev_positive.
- by move=> j Hj; apply: o_rev_const; apply: Co.
exists B1, g1, o1; split=> //.
- move=> i j Hj; rewrite E1 // mxE.
  by do 2!(case: eqP => [Ej|_]; first by move: Hj; rewrite Ej).
by move=> i; rewrite En; apply: (entailed_rev SG AG CG').
Qed.

(** The score depends on the entailed covariances only. *)
Section Score.
Variables (F : realFieldType) (log : F -> F) (h : hord) (p l l' e : nat).
Variables (A A' : mat) (B B' : 'M[F]_p) (g : 'M[F]_(l, p)) (g' : 'M[F]_(l', p)) (o o' : 'M[F]_(e, p)).
Variables (s : 'M[F]_(e, l)) (s' : 'M[F]_(e, l')) (m : model F p l e) (m' : model F p l' e).

Lemma term_entailed (N R S : 'M[F]_p) : R \in unitmx -> \det R = 1 -> N \in unitmx ->
  - log (\det (invmx N)) + \tr (invmx N *m (R *m S *m R^T)) =
  - log (\det (invmx (invmx R *m N *m (invmx R)^T))) + \tr (invmx (invmx R *m N *m (invmx R)^T) *m S).
Proof.
move=> uR dR uN; have uRi : invmx R \in unitmx by rewrite unitmx_inv.
have uRT : (invmx R)^T \in unitmx by rewrite unitmx_tr.
congr (_ + _).
  by rewrite !det_inv !det_mulmx det_tr det_inv dR invr1 mul1r mulr1.
rewrite !invmxM ?unitmx_mul ?uRi // invmxK -trmx_inv invmxK.
by rewrite !mulmxA mxtrace_mulC !mulmxA.
Qed.

Lemma score_entailed sigmas n_obs : square p A -> nonneg A -> new_model h A B g o s = Ok m -> positive o ->
  (forall a b, 0 <= s a b) ->
  square p A' -> nonneg A' -> new_model h A' B' g' o' s' = Ok m' -> positive o' -> (forall a b, 0 <= s' a b) ->
  (forall i, entailed B g o s i = entailed B' g' o' s' i) -> score log m sigmas n_obs = score log m' sigmas n_obs.
Proof.
move=> SA NA E Po Ps SA' NA' E' Po' Ps' En.
have [HA HB Em] := new_model_ok SA NA E; have [HA' HB' Em'] := new_model_ok SA' NA' E'.
rewrite !score_value ?Em ?Em' //; congr Ok; apply: eq_bigr => i _; congr (_ * _ / _); rewrite /= -![mnoise _ _]noiseE.
have dR := det_sub_dag HA HB; have dR' := det_sub_dag HA' HB'.
rewrite !term_entailed ?dR ?dR' ?unitmxE ?dR ?dR' ?unitr1 //.
- by rewrite -!/(entailed _ _ _ _ _) En.
- by rewrite -unitmxE noiseE; apply/posdef_unit/posdef_noise => j; rewrite mxE.
- by rewrite -unitmxE noiseE; apply/posdef_unit/posdef_noise => j; rewrite mxE.
Qed.
End Score.

Lemma equivalent_scores (F : realFieldType) (h : hord) (p l e : nat) (I : list nat) G D (B : 'M[F]_p) (g : 'M[F]_(l, p))
  (o : 'M[F]_(e, p)) (s : 'M[F]_(e, l)) m :
  square p G -> nonneg G -> square p D -> nonneg D -> acyclic D -> imarkov_equiv I G D ->
  new_model h G B g o s = Ok m -> positive o -> (forall a b, 0 <= s a b) ->
  (forall j : 'I_p, ~ List.In (nat_of_ord j) I -> const_col o j) ->
  exists B' g' (o' : 'M[F]_(e, p)) m',
  [/\ new_model h D B' g' o' s = Ok m', positive o', forall j : 'I_p, ~ List.In (nat_of_ord j) I -> const_col o' j,
      forall (i : 'I_e) (j : 'I_p), List.In (nat_of_ord j) I -> o' i j = o i j &
      (forall i, entailed B' g' o' s i = entailed B g o s i) /\
      forall (log : F -> F) sigmas n_obs, score log m' sigmas n_obs = score log m sigmas n_obs].
Proof.
move=> SG NG SD ND AD EQ Em Po Ps Co; have [AG SB _] := new_model_ok SG NG Em.
have [B' [g' [o' [SB' Po' Co' Eo En]]]] := equivalent_mimics g s SG AG SD AD EQ SB Po Co.
have Em' : new_model h D B' g' o' s = Ok (MkModel D B' g' o' s (1%:M - B'^T)).
  by case: (new_model_spec h B' g' o' s SD ND) => [[_ [_ ->]]|[H _]] //; case: H.
exists B', g', o', (MkModel D B' g' o' s (1%:M - B'^T)); split=> //; split=> // log sigmas n_obs.
exact: (score_entailed _ _ _ SD ND Em' Po' Ps SG NG Em Po Ps).
Qed.

Lemma icpdag_scores (F : realFieldType) (h h' : hord) (p l e : nat) (I : list nat) G D (log : F -> F)
  (sigmas : 'I_e -> 'M[F]_p) n_obs (s : 'M[F]_(e, l)) x :
  square p G -> nonneg G -> acyclic G -> square p D -> nonneg D -> acyclic D ->
  dag_to_icpdag h G I = dag_to_icpdag h' D I -> (forall a b, 0 <= s a b) ->
  let reaches A := exists B g (o : 'M[F]_(e, p)) m,
    [/\ positive o, forall j : 'I_p, ~ List.In (nat_of_ord j) I -> const_col o j,
        new_model h A B g o s = Ok m & score log m sigmas n_obs = Ok x] in
  reaches G <-> reaches D.
Proof.
have R A A' : square p A -> nonneg A -> square p A' -> nonneg A' -> acyclic A' -> imarkov_equiv I A A' ->
  (forall a b, 0 <= s a b) ->
  (exists B g (o : 'M[F]_(e, p)) m, [/\ positive o, forall j : 'I_p, ~ List.In (nat_of_ord j) I -> const_col o j,
        new_model h A B g o s = Ok m & score log m sigmas n_obs = Ok x]) ->
  (exists B g (o : 'M[F]_(e, p)) m, [/\ positive o, forall j : 'I_p, ~ List.In (nat_of_ord j) I -> const_col o j,
        new_model h A' B g o s = Ok m & score log m sigmas n_obs = Ok x]).
  move=> SA NA SA' NA' AA' EQ Ps [B [g [o [m [Po Co Em Es]]]]].
  have [B' [g' [o' [m' [Em' Po' Co' _ [_ Es']]]]]] := equivalent_scores SA NA SA' NA' AA' EQ Em Po Ps Co.
  by exists B', g', o', m'; split=> //; rewrite Es'.
move=> SG NG AG SD ND AD /(dag_to_icpdag_canonical h h' p G D I I SG NG AG SD ND AD (fun=> iff_refl _)) EQ Ps /=.
split; apply: R => //; split.
- case: EQ => [[E1 E2] _]; split; [by move=> i j; rewrite (E1 i j) | by move=> i c j; rewrite (E2 i c j)].
- by case: EQ => _ E v /E H i; rewrite (H i).
Qed.

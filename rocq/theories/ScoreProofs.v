(** Proofs about the solvers and score_dag. *)
From Coq Require Import ZArith Lia List.
From mathcomp Require Import all_ssreflect all_algebra.
From Verif Require Import Base GraphModel GraphSpec TopoProofs NumModel NumSpec NumProofs ScoreModel CacheSpec CacheProofs.
From Verif Require Import ScoreSpec GDProofs.
Set Implicit Arguments.
Unset Strict Implicit.
Unset Printing Implicit Defensive.
Import Order.Theory GRing.Theory Num.Theory.
Local Open Scope ring_scope.

Lemma big_max_gt (F : realFieldType) (I : finType) (f : I -> F) c : 0 <= c ->
  (c < \big[Order.max/0]_i f i) = [exists i, c < f i].
Proof.
move=> c0; have H r : (c < \big[Order.max/0]_(i <- r) f i) = has (fun i => c < f i) r.
  elim: r => [|i r IH]; first by rewrite big_nil ltNge c0.
  by rewrite big_cons lt_maxr IH.
rewrite H; apply/hasP/existsP => [[i _ Hi]|[i Hi]]; exists i => //; exact: mem_index_enum.
Qed.

Section Score.
Variables (F : realFieldType) (p l e : nat) (cf : conf F p l e).
Local Notation h := (cf_h cf).
Local Notation model := (model F p l e).
Local Notation newM := (@new_model F h p l e).

Lemma amax_gt (X : 'M[F]_p) d c : amax X = Ok d -> 0 <= c -> (c < d) <-> exists i j, c < `|X i j|.
Proof.
rewrite /amax; case: eqP => // _ [<-] c0; rewrite big_max_gt //; split.
  by case/existsP=> i; rewrite big_max_gt // => /existsP [j Hj]; exists i, j.
by case=> i [j Hj]; apply/existsP; exists i; rewrite big_max_gt //; apply/existsP; exists j.
Qed.

(** * The solvers for B *)

Lemma pattern_supported A (X : 'M[F]_p) : supported A (1%:M - pattern A X)^T.
Proof.
move=> i j; rewrite !mxE; case: (altP (j =P i)) => [->|ij]; first by rewrite subrr eqxx.
by case: Z.eqb_spec => // _; rewrite subr0 eqxx.
Qed.

Lemma adaptive_loop_pattern k lik (Ms : 'I_e -> 'M[F]_p) A lr cur cs X :
  (exists Y, cur = pattern A Y) -> adaptive_loop cf k lik Ms A lr cur cs = Ok X -> exists Y, X = pattern A Y.
Proof.
elim: k lr cur cs => [|k IH] lr cur cs C //=.
case: (lik _) => [ns|] //=; case: ifP => _; first exact: IH.
case: (amax _) => [d|] //=; case: ifP => _; first by case=> <-.
by apply: IH; eexists.
Qed.

Lemma adaptive_supported (m : model) rnd B : solve_B_adaptive cf m rnd = Ok B -> supported (mA m) B.
Proof.
rewrite /solve_B_adaptive; case: (inv_noise m) => [Ms|] //=; case: (bind (new_model _ _ _ _ _ _) _) => [cs|] //=.
case E: adaptive_loop => [X|] //= [<-].
by case: (adaptive_loop_pattern _ E) => [|Y ->]; [eexists | apply: pattern_supported].
Qed.

Lemma grad_loop_pattern k (Ms : 'I_e -> 'M[F]_p) A init lr B Bnew r :
  nontrivial init -> (B = 0 /\ Bnew = init \/ exists X, Bnew = pattern A X) ->
  grad_loop cf k Ms A init lr B Bnew = Ok r -> r.2 = 0 \/ exists X, r.1 = pattern A X.
Proof.
move=> NT; have c0 : 0 <= (10%:R ^+ 10)^-1 :> F by rewrite invr_ge0 exprn_ge0 ?ler0n.
have EX d : amax (0 - init) = Ok d -> (10%:R ^+ 10)^-1 < d.
  move=> E; apply/(amax_gt E c0); case: NT => i [j Hij]; exists i, j; by rewrite sub0r mxE normrN.
elim: k lr B Bnew => [|k IH] lr B Bnew H /=; case EA: (amax _) => [d|] //=; case: ifP => Hd //.
- case: H => [[EB EN]|[Y ->]]; last by case=> <-; right; exists Y.
  by rewrite EB EN in EA; rewrite (EX _ EA) in Hd.
- case: eqP => [-> [<-]|_]; first by left.
  case: ifP => _; apply: IH; first by left.
  by right; eexists.
- case: H => [[EB EN]|[Y ->]]; last by case=> <-; right; exists Y.
  by rewrite EB EN in EA; rewrite (EX _ EA) in Hd.
Qed.

Lemma solve_B_supported (m : model) rnd rnd' B :
  (cf_solver cf = Grad -> nontrivial rnd) -> solve_B cf m rnd rnd' = Ok B -> supported (mA m) B.
Proof.
rewrite /solve_B; case: (cf_solver cf) => HR; last exact: adaptive_supported.
  rewrite /solve_B_cvx; case: (inv_noise m) => [Ms|] //=; case: (cf_cvx cf m) => [B0|] //; case: ifP => // _ [<-].
  by move=> i j; rewrite mxE; case: Z.eqb_spec => // _; rewrite eqxx.
rewrite /solve_B_grad; case: (inv_noise m) => [Ms|] //=.
case E: grad_loop => [r|] //=; case: ifP => [/andP [_ R0]|_]; last exact: adaptive_supported.
case=> <-; case: (grad_loop_pattern (HR erefl) (or_introl (conj erefl erefl)) E) => [R|[X ->]].
  by rewrite R ltxx in R0.
exact: pattern_supported.
Qed.

(** * Initialisation *)

Lemma init_cols_supported A js (B B' : 'M[F]_p) : supported A B -> init_cols cf A js B = Ok B' -> supported A B'.
Proof.
elim: js B => [|j js IH] B SB /=; first by case=> <-.
case: regress => [x|] //=; apply: IH => i k; rewrite mxE; case: ifP => [/andP [/eqP -> Hi] _|_]; last exact: SB.
by move: Hi; rewrite mem_filter => /andP [/negP Z0 _] E; apply: Z0; apply/Z.eqb_eq.
Qed.

Lemma initialize_B_supported A B : initialize_B cf A = Ok B -> supported A B.
Proof. by apply: init_cols_supported => i j; rewrite mxE eqxx. Qed.

Lemma initialize_omegas_const (B : 'M[F]_p) I (j : 'I_p) : ~ In (nat_of_ord j) I -> const_col (initialize_omegas cf B I) j.
Proof.
move=> NI i i'; rewrite !mxE; case E: (memb _ _) => //; case: NI; exact/memb_In.
Qed.

(** * The solver for the variances *)

Lemma average_const a b (c : pred 'I_b) (X : 'M[F]_(a, b)) j : c j -> const_col (average_cols c X) j.
Proof. by move=> H i i'; rewrite !mxE H. Qed.

Lemma sub_const a b (X Y : 'M[F]_(a, b)) c j : const_col X j -> const_col Y j -> const_col (X - c *: Y) j.
Proof. by move=> HX HY i i'; rewrite !mxE (HX i i') (HY i i'). Qed.

Lemma in_entries a b (X : 'M[F]_(a, b)) i j : X i j \in entries X.
Proof. by apply/allpairsP; exists (i, j); rewrite !mem_enum. Qed.
Lemma entriesP a b (X : 'M[F]_(a, b)) x : x \in entries X -> exists i j, x = X i j.
Proof. by case/allpairsP=> [[i j]] [_ _ ->]; exists i, j. Qed.

Lemma rest_inside (x : 'M[F]_(e, p) * 'M[F]_(e, l)) :
  inside_opt [:: entries x.1; entries x.2] (Some (rest_bounds cf)) ->
  [/\ positive x.1, positive x.2 & forall u, cf_psi_max cf = Some u -> forall i j, x.2 i j < u].
Proof.
move=> /(_ _ erefl) /inside_cons [_ H1 /inside_cons [_ H2 _]]; split.
- by move=> i j; case: (H1 _ (in_entries x.1 i j)).
- by move=> i j; case: (H2 _ (in_entries x.2 i j)).
- by move=> u Hu i j; case: (H2 _ (in_entries x.2 i j)) => _; apply.
Qed.

Lemma solve_rest_spec (m : model) I x : solve_rest cf m I = Ok x ->
  [/\ positive x.1, positive x.2 & forall u, cf_psi_max cf = Some u -> forall i j, x.2 i j < u] /\
  (invariant_outside (cf_psi_fixed cf) I m ->
   (forall j : 'I_p, ~ In (nat_of_ord j) I -> const_col x.1 j) /\
   (cf_psi_fixed cf = true -> forall j : 'I_l, const_col x.2 j)).
Proof.
rewrite /solve_rest; case E: gd => [[y ly]|] //= [<-].
case: (gd_ok E) => [[I0 I1] D _]; split; first exact: rest_inside I1.
move=> [H1 H2].
apply: (descent_inv (P := fun x : 'M[F]_(e, p) * 'M[F]_(e, l) =>
  (forall j : 'I_p, ~ In (nat_of_ord j) I -> const_col x.1 j) /\
  (cf_psi_fixed cf = true -> forall j : 'I_l, const_col x.2 j)) _ D I0) => //=.
move=> z g c [P1 P2]; rewrite /rest_gradient; case: (newM _ _ _ _ _) => [nm|] //=.
case: (inv_noise nm) => [Ms|] //= [<-] _; split=> [j NI|FX j] /=; apply: sub_const; auto.
  by apply: average_const; apply/negP => /memb_In.
by rewrite FX; apply: average_const.
Qed.

(** * Rounds *)

Section Fit.
Variable A : mat.
Hypothesis SA : square p A.
Hypothesis NA : nonneg A.

Lemma round_ok I rnd (pm cm : model) s d : mA pm = A -> round cf I rnd pm = Ok (cm, s, d) ->
  [/\ acyclic A, supported A (mB pm), mA cm = A & mI_B cm = 1%:M - (mB pm)^T] /\
  [/\ solve_B cf (MkModel A (mB pm) (mgamma pm) (momegas pm) (mpsis pm) (1%:M - (mB pm)^T)) rnd.1 rnd.2 = Ok (mB cm),
      solve_rest cf (MkModel A (mB cm) (mgamma cm) (momegas pm) (mpsis pm) (mI_B cm)) I = Ok (momegas cm, mpsis cm),
      mscore cf cm = Ok s & amax (mB pm - mB cm) = Ok d].
Proof.
move=> EA; rewrite /round /copy_model EA; case E0: (newM _ _ _ _ _) => [c0|] //=.
case: (new_model_ok SA NA E0) => HA HB -> {E0 c0}; case EB: solve_B => [nB|] //=.
case: solve_gamma => [g|] //=; case ER: solve_rest => [[o ps]|] //=.
case ED: (amax _) => [d'|] //=; case ES: (mscore _ _) => [s'|] //= [<- <- <-] /=.
by split; split.
Qed.

(** Facts kept from round to round. *)
Lemma alt_loop_inv I rnd (P : model -> F -> Prop) :
  (forall k pm ps cm s d, mA pm = A -> P pm ps -> round cf I (rnd k) pm = Ok (cm, s, d) -> P cm s) ->
  forall k i dist flucs pm ps cur m s, mA pm = A -> P pm ps -> (forall r, cur = Some r -> mA r.1 = A /\ P r.1 r.2) ->
  alt_loop cf k I rnd i dist flucs pm ps cur = Ok (Some (m, s)) -> mA m = A /\ P m s.
Proof.
move=> H; elim=> [|k IH] i dist flucs pm ps cur m s EA HP HC /=; case: ifP => // _.
- by case=> E; case: (HC _ E).
- case ER: round => [[[cm cs] d]|] //=.
  have [[_ _ EA' _] _] := round_ok EA ER; have HP' := H _ _ _ _ _ _ EA HP ER.
  by apply: IH => // r [<-].
- by case=> E; case: (HC _ E).
Qed.

(** The result is that of a round, from a model with the same graph. *)
Lemma alt_loop_last I rnd k i dist flucs (pm : model) ps cur m s : mA pm = A ->
  (forall r, cur = Some r -> exists j pm' d, mA pm' = A /\ round cf I (rnd j) pm' = Ok (r.1, r.2, d)) ->
  alt_loop cf k I rnd i dist flucs pm ps cur = Ok (Some (m, s)) ->
  exists j pm' d, mA pm' = A /\ round cf I (rnd j) pm' = Ok (m, s, d).
Proof.
elim: k i dist flucs pm ps cur => [|k IH] i dist flucs pm ps cur EA HC /=; case: ifP => // _.
- by case=> E; apply: (HC _ E).
- case ER: round => [[[cm cs] d]|] //=.
  have [[_ _ EA' _] _] := round_ok EA ER.
  by apply: IH => // r [<-] /=; exists i, pm, d.
- by case=> E; apply: (HC _ E).
Qed.

Lemma initial_ok I m : initial_model cf A I = Ok m ->
  [/\ mA m = A, acyclic A, supported A (mB m), invariant_outside (cf_psi_fixed cf) I m & mpsis m = const_mx 1].
Proof.
rewrite /initial_model; case EB: initialize_B => [B|] //=; case: initialize_gamma => [g|] //= EN.
case: (new_model_ok SA NA EN) => HA HB ->; split=> //; split=> /= [j|_ j].
  exact: initialize_omegas_const.
by move=> i i'; rewrite !mxE.
Qed.

Lemma fit_start I init rnd m s : (forall m0, init = Some m0 -> square p (mA m0)) -> fit cf A I init rnd = Ok (m, s) ->
  exists m0 s0, [/\ mA m0 = A, (init = None -> initial_model cf A I = Ok m0), (forall m1, init = Some m1 -> m1 = m0),
    mscore cf m0 = Ok s0 & alt_loop cf (cf_max_iter cf) I rnd 0 None 0 m0 s0 None = Ok (Some (m, s))].
Proof.
move=> SI; rewrite /fit; case: (is_dag _ _) => [[]|] //=.
have HI : forall m0, match init with Some m => if mateqb (mA m) A then Ok m else Err ValueError | None => initial_model cf A I end
  = Ok m0 -> [/\ mA m0 = A, (init = None -> initial_model cf A I = Ok m0) & (forall m1, init = Some m1 -> m1 = m0)].
  case: init SI => [m1|] SI m0.
    by case: ifP => // /(mateqbP (SI _ erefl) SA) E [<-]; split=> // m2 [].
  by move=> E; case: (initial_ok E) => -> *; split.
case: (match init with Some _ => _ | None => _ end) HI => [m0|] //= HI; case: (HI m0 erefl) => EA E1 E2.
case ES: (mscore _ _) => [s0|] //=; case EL: alt_loop => [[r|]|] //= [Er].
by exists m0, s0; split=> //; rewrite EL Er.
Qed.

(** A round with a B that is not supported fails. *)
Lemma solve_rest_supported (m : model) I x : mA m = A -> solve_rest cf m I = Ok x -> supported A (mB m).
Proof.
move=> EA; rewrite /solve_rest; case E: gd => [[y ly]|] //= _; case: (gd_ok E) => _ _ [li [E0 _ _]].
move: E0; rewrite /rest_loss EA; case EN: (newM _ _ _ _ _) => [nm|] //= _.
by case: (new_model_ok SA NA EN).
Qed.

Lemma fit_facts I init rnd m s : (forall m0, init = Some m0 -> square p (mA m0)) -> fit cf A I init rnd = Ok (m, s) ->
  [/\ acyclic A, mA m = A, supported A (mB m) & in_range (cf_psi_max cf) m] /\
  (init = None -> invariant_outside (cf_psi_fixed cf) I m).
Proof.
move=> SI E; case: (fit_start SI E) => m0 [s0 [EA E1 _ _ EL]].
case: (alt_loop_last EA _ EL) => // j [pm [d [EP ER]]].
case: (round_ok EP ER) => [[HA HB EM _] [EB ES _ _]].
have SB : supported A (mB m) by apply: (solve_rest_supported _ ES).
split; first by split=> //; case: (solve_rest_spec ES).
move=> E0; case: (alt_loop_inv (P := fun m _ => invariant_outside (cf_psi_fixed cf) I m) _ EA _ _ EL) => //.
  by move=> k pm1 ps1 cm s1 d1 EP1 HP1 ER1; case: (round_ok EP1 ER1) => _ [_ /solve_rest_spec [_ /(_ HP1) []]].
by case: (initial_ok (E1 E0)).
Qed.
End Fit.
End Score.

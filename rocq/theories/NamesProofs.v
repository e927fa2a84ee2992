(** The fitting procedure does not depend on the names of the variables (C121). *)
From Coq Require Import ZArith Lia List.
From mathcomp Require Import all_ssreflect all_algebra all_fingroup.
From Verif Require Import Base FieldTac GraphSpec NumSpec GradSpec RenameSpec GraphModel NumModel LinAlgProofs NumProofs GradProofs.
From Verif Require Import RenameProofs EquivProofs RenScoreProofs ScoreModel CacheSpec CacheProofs ScoreSpec GDProofs ScoreProofs HistProofs LoopProofs NoErrProofs RunProofs PruneProofs NamesSpec.
Set Implicit Arguments.
Unset Strict Implicit.
Unset Printing Implicit Defensive.
Import Order.Theory GRing.Theory Num.Theory.
Local Open Scope ring_scope.

Lemma bind_map (A A' B B' : Type) (f : A -> A') (k : B -> B') (r : res A) (r' : res A') (c : A -> res B) (c' : A' -> res B') :
  r' = res_map f r -> (forall x, r = Ok x -> c' (f x) = res_map k (c x)) -> bind r' c' = res_map k (bind r c).
Proof. by move=> ->; case: r => //= x H; apply: H. Qed.
Lemma bind_same (A B B' : Type) (k : B -> B') (r r' : res A) (c : A -> res B) (c' : A -> res B') :
  r' = r -> (forall x, r = Ok x -> c' x = res_map k (c x)) -> bind r' c' = res_map k (bind r c).
Proof. by move=> ->; case: r => //= x H; apply: H. Qed.
Lemma bind_eq (A A' B : Type) (f : A -> A') (r : res A) (r' : res A') (c : A -> res B) (c' : A' -> res B) :
  r' = res_map f r -> (forall x, r = Ok x -> c' (f x) = c x) -> bind r' c' = bind r c.
Proof. by move=> ->; case: r => //= x H; apply: H. Qed.
Lemma map_id (A : Type) (r : res A) : res_map id r = r. Proof. by case: r. Qed.

(** Gradient descent under a change of coordinates *)
Section GD.
Variables (F : realFieldType) (X X' : Type) (phi : X -> X').
Variables (sub : X -> F -> X -> X) (flat : X -> seq (seq F)) (loss : X -> res F) (grad : X -> res X).
Variables (sub' : X' -> F -> X' -> X') (flat' : X' -> seq (seq F)) (loss' : X' -> res F) (grad' : X' -> res X').
Variables (threshold lr kz : F) (bounds : option (seq (F * option F))).
Hypothesis Hs : forall x c g, sub' (phi x) c (phi g) = phi (sub x c g).
Hypothesis Hb : forall x, in_bounds flat' bounds (phi x) = in_bounds flat bounds x.
Hypothesis Hl : forall x, loss' (phi x) = loss x.
Hypothesis Hg : forall x, grad' (phi x) = res_map phi (grad x).
Let k (r : X * F) := (phi r.1, r.2).

Lemma gd_loop_map fuel x cl kappa g : gd_loop sub' flat' loss' grad' threshold lr kz bounds fuel (phi x) cl kappa (omap phi g) =
  res_map k (gd_loop sub flat loss grad threshold lr kz bounds fuel x cl kappa g).
Proof.
elim: fuel x cl kappa g => [|fuel IH] x cl kappa g //=.
apply: (@bind_map _ _ _ _ phi); first by case: g => //=.
move=> g' _; rewrite /= Hs; apply: bind_same; first exact: Hb.
move=> b _; case: b => /=; last exact: (IH _ _ _ (Some g')).
apply: bind_same; first exact: Hl.
move=> nl _; case: ifP => // _; case: ifP => [_|_]; first exact: (IH _ _ _ None).
by case: ifP => // _; exact: (IH _ _ _ (Some g')).
Qed.

Lemma gd_map fuel x : gd sub' flat' loss' grad' threshold lr kz bounds fuel (phi x) = res_map k (gd sub flat loss grad threshold lr kz bounds fuel x).
Proof.
rewrite /gd; apply: bind_same; first exact: Hb.
move=> b _; case: ifP => // _; apply: bind_same; first exact: Hl.
by move=> cl _; apply: (gd_loop_map _ _ _ _ None).
Qed.
End GD.

Section Go.
Variables (F : realFieldType) (p l e : nat) (cf : conf F p l e).
Definition go (st : option (cache (model F p l e) F)) A I init rnd :=
  match fit cf A I init rnd with
  | Err x => (st, Err x)
  | Ok (m, s) =>
      match st with
      | None => (st, Ok (m, s))
      | Some c => let '(c', w) := write (@copy_model F (cf_h cf) p l e) c A I m s in (Some c', bind w (fun _ => Ok (m, s)))
      end
  end.
Lemma score_dagE st A I init rnd : score_dag cf st A I init rnd =
  match init, st with
  | None, Some c => match read c A I with Err x => (st, Err x) | Ok (Some r) => (st, Ok r) | Ok None => go st A I init rnd end
  | _, _ => go st A I init rnd
  end.
Proof. by []. Qed.
End Go.

Section Names.
Variables (F : realFieldType) (p l e : nat) (f g : nat -> nat) (t : 'S_p) (cf cf' : conf F p l e).
Hypothesis N : names f g t.
Hypothesis RC : renamed_conf g t cf cf'.
Local Notation model := (model F p l e).
Local Notation ren := (rename p g).
Local Notation rm := (rename_model g t).
Local Notation both := (@both F p t).
Local Notation rmx := (rename_mx t).
Let R : renaming p f g := proj1 N.
Let gt (i : 'I_p) : g i = t i := proj2 N i.

Lemma rmxE X : rmx X = both X. Proof. by []. Qed.
Lemma ren_get A (i j : 'I_p) : square p A -> get (ren A) i j = get A (t i) (t j).
Proof. by move=> SA; rewrite (get_rename _ _ _ R) // !gt. Qed.
Lemma both0 : both 0 = 0 :> 'M[F]_p. Proof. by apply/matrixP => i j; rewrite !mxE. Qed.
Lemma bothZ c X : both (c *: X) = c *: both X. Proof. by apply/matrixP => i j; rewrite !mxE. Qed.
Lemma bothD X Y : both (X + Y) = both X + both Y. Proof. by apply/matrixP => i j; rewrite !mxE. Qed.
Lemma both_unit X : (both X \in unitmx) = (X \in unitmx). Proof. by rewrite !unitmxE both_det. Qed.
Lemma both_invmx X : invmx (both X) = both (invmx X).
Proof.
case U : (X \in unitmx); first exact: both_inv.
by rewrite /invmx both_unit U.
Qed.
Lemma both_sum (I : finType) (X : I -> 'M[F]_p) : both (\sum_k X k) = \sum_k both (X k).
Proof. by apply/matrixP => i j; rewrite !(mxE, summxE); apply: eq_bigr => k _; rewrite mxE. Qed.

Lemma new_model_rename h h' A B ga (o : 'M[F]_(e, p)) (s : 'M[F]_(e, l)) : square p A -> nonneg A ->
  new_model h' (ren A) (both B) (col_perm t ga) (col_perm t o) s = res_map rm (new_model h A B ga o s).
Proof.
move=> SA NA; rewrite /new_model (square_length SA) (square_length (rename_square p g A)) eqxx /=.
apply: bind_same; first exact: (is_dag_rename _ _ _ R).
move=> d _; case: d => //=.
have -> : respects (ren A) (both B) = respects A B.
  apply/forallP/forallP => H i; apply/forallP => j; apply/implyP => E.
    have := forallP (H ((t^-1)%g i)) ((t^-1)%g j); rewrite ren_get // !permKV mxE !permKV => /implyP; exact.
  by move: E; rewrite ren_get // mxE => E; have := forallP (H (t i)) (t j) => /implyP; apply.
by case: ifP => //= _; congr Ok; rewrite /rename_model /= !rmxE bothB both1 both_tr.
Qed.

Lemma noise_rename ga (o : 'M[F]_(e, p)) (s : 'M[F]_(e, l)) i : noise_cov (col_perm t ga) (col_perm t o) s i = both (noise_cov ga o s i).
Proof.
apply/matrixP => u v; rewrite -!noiseE [in RHS]mxE !mxE (inj_eq perm_inj); congr (_ + _).
by apply: eq_bigr => a _; rewrite !mxE.
Qed.

Lemma bind_inv (B B' : Type) (k : B -> B') (m : model) (c : ('I_e -> 'M[F]_p) -> res B) (c' : ('I_e -> 'M[F]_p) -> res B') :
  (forall Ms Ms', (forall x, Ms' x = both (Ms x)) -> c' Ms' = res_map k (c Ms)) ->
  bind (inv_noise (rm m)) c' = res_map k (bind (inv_noise m) c).
Proof.
move=> H; rewrite /inv_noise /mnoise /=.
have -> : [forall i, noise_cov (col_perm t (mgamma m)) (col_perm t (momegas m)) (mpsis m) i \in unitmx] =
          [forall i, noise_cov (mgamma m) (momegas m) (mpsis m) i \in unitmx].
  by apply: eq_forallb => i; rewrite noise_rename both_unit.
case: ifP => //= _; apply: H => x; by rewrite noise_rename both_invmx.
Qed.

Lemma foldl_eq (A B : Type) (f1 f2 : A -> B -> A) x s : (forall a b, f1 a b = f2 a b) -> foldl f1 x s = foldl f2 x s.
Proof. by move=> H; elim: s x => //= b s IH x; rewrite H IH. Qed.

Lemma score_ren log (m : model) sig sig' n n' : (forall k, sig' k = both (sig k)) -> (forall k, n' k = n k) ->
  score log (rm m) sig' n' = score log m sig n.
Proof.
move=> Es En; rewrite /score -[RHS]map_id; apply: bind_inv => Ms Ms' H /=; congr Ok.
rewrite (eq_bigr n) //; apply: foldl_eq => s i; rewrite En; congr (_ / _); congr (_ + _ * _).
by rewrite /score_term H both_det Es rmxE both_tr -!bothM both_trace.
Qed.
Lemma mscore_rename (m : model) : mscore cf' (rm m) = mscore cf m.
Proof. by rewrite /mscore (rc_log RC); apply: score_ren => k; [exact: (rc_sigmas RC)|exact: (rc_n_obs RC)]. Qed.
Lemma tot_rename : (\sum_i cf_n_obs cf' i)%N = (\sum_i cf_n_obs cf i)%N.
Proof. by apply: eq_bigr => i _; exact: (rc_n_obs RC). Qed.

Lemma amax_rename X : amax (both X) = amax X.
Proof.
case E : (amax X) => [d|x]; last by move: E; rewrite /amax; case: ifP => // _ [<-].
have [d' E'] : exists d', amax (both X) = Ok d' by move: E; rewrite /amax; case: ifP => // _ _; eexists.
rewrite E'; congr Ok; have [[i [j <-]] H] := amax_spec E; have [[i' [j' <-]] H'] := amax_spec E'.
apply/eqP; rewrite eq_le; apply/andP; split; first by rewrite mxE H.
by have := H' ((t^-1)%g i) ((t^-1)%g j); rewrite !mxE !permKV.
Qed.

Lemma sumt (G : 'I_p -> F) : \sum_i G (t i) = \sum_i G i.
Proof. by rewrite [RHS](reindex_inj (@perm_inj _ t)). Qed.

Lemma Nmat_rename Ms Ms' r c r' c' : (forall x, Ms' x = both (Ms x)) ->
  Nmat cf' Ms' r c r' c' = Nmat cf Ms (t r) (t c) (t r') (t c').
Proof.
move=> H; apply: eq_bigr => k _; rewrite -[RHS]sumt; apply: eq_bigr => v _; rewrite -[RHS]sumt; apply: eq_bigr => u _.
by rewrite /kron (rc_sigmas RC) H -!rmxE !(rc_sqrtm RC) !mxE.
Qed.
Lemma Nmul_rename Ms Ms' X : (forall x, Ms' x = both (Ms x)) -> Nmul cf' Ms' (both X) = both (Nmul cf Ms X).
Proof.
move=> H; apply/matrixP => r c; rewrite !mxE -[RHS]sumt; apply: eq_bigr => c' _; rewrite -[RHS]sumt; apply: eq_bigr => r' _.
by rewrite (Nmat_rename _ _ _ _ H) mxE.
Qed.
Lemma pattern_rename A X : square p A -> pattern (ren A) (both X) = both (pattern A X).
Proof. by move=> SA; apply/matrixP => r c; rewrite !mxE (inj_eq perm_inj) ren_get. Qed.

Lemma adaptive_rename k lik lik' Ms Ms' A lr cur cs : square p A -> (forall x, Ms' x = both (Ms x)) -> (forall X, lik' (both X) = lik X) ->
  adaptive_loop cf' k lik' Ms' (ren A) lr (both cur) cs = res_map both (adaptive_loop cf k lik Ms A lr cur cs).
Proof.
move=> SA H HL; elim: k lr cur cs => //= k IH lr cur cs.
rewrite (Nmul_rename _ H) -bothZ -bothB pattern_rename //.
apply: bind_same; first exact: HL.
move=> ns _; case: ifP => // _; apply: bind_same; first by rewrite -bothB amax_rename.
by move=> d _; case: ifP.
Qed.

Lemma tr1 X : (1%:M - both X)^T = both (1%:M - X)^T.
Proof. by rewrite -both_tr bothB both1. Qed.

Lemma solve_B_adaptive_rename (m : model) rnd : square p (mA m) -> nonneg (mA m) ->
  solve_B_adaptive cf' (rm m) (both rnd) = res_map both (solve_B_adaptive cf m rnd).
Proof.
move=> SA NA; rewrite /solve_B_adaptive; apply: bind_inv => Ms Ms' H /=.
have HL X : bind (new_model (cf_h cf') (ren (mA m)) (1%:M - both X)^T (col_perm t (mgamma m)) (col_perm t (momegas m)) (mpsis m)) (mscore cf') =
            bind (new_model (cf_h cf) (mA m) (1%:M - X)^T (mgamma m) (momegas m) (mpsis m)) (mscore cf).
  rewrite tr1; apply: (@bind_eq _ _ _ rm) => [|x _]; [exact: new_model_rename|exact: mscore_rename].
rewrite pattern_rename //; apply: bind_same; first exact: HL.
move=> cs _; apply: (@bind_map _ _ _ _ both); first by rewrite (rc_fuel RC); exact: adaptive_rename.
by move=> X _ /=; rewrite tr1.
Qed.

Let k2 (r : 'M[F]_p * F) := (both r.1, r.2).
Lemma grad_rename k Ms Ms' A init lr B Bn : square p A -> (forall x, Ms' x = both (Ms x)) ->
  grad_loop cf' k Ms' (ren A) (both init) lr (both B) (both Bn) = res_map k2 (grad_loop cf k Ms A init lr B Bn).
Proof.
move=> SA H; elim: k lr B Bn => [|k IH] lr B Bn /=; (apply: bind_same; first by rewrite -bothB amax_rename) => d _.
  by case: ifP.
case: ifP => // _; case: ifP => // _; rewrite (Nmul_rename _ H) -bothZ -!rmxE (rc_finite RC) !rmxE.
case: ifP => _; first by rewrite -IH both0.
by rewrite -bothB pattern_rename // IH.
Qed.

Lemma solve_B_grad_rename (m : model) rnd rnd' : square p (mA m) -> nonneg (mA m) ->
  solve_B_grad cf' (rm m) (both rnd) (both rnd') = res_map both (solve_B_grad cf m rnd rnd').
Proof.
move=> SA NA; rewrite /solve_B_grad; apply: bind_inv => Ms Ms' H.
apply: (@bind_map _ _ _ _ k2); first by rewrite -{1}both0 (rc_fuel RC); exact: grad_rename.
move=> r _ /=; have -> : 1%:M - both r.1 = both (1%:M - r.1) by rewrite bothB both1.
rewrite -{1}rmxE (rc_finite RC); case: ifP => _ /=; first by rewrite both_tr.
exact: solve_B_adaptive_rename.
Qed.

Lemma solve_B_cvx_rename (m : model) : square p (mA m) -> nonneg (mA m) ->
  solve_B_cvx cf' (rm m) = res_map both (solve_B_cvx cf m).
Proof.
move=> SA NA; rewrite /solve_B_cvx; apply: bind_inv => _ _ _; rewrite (rc_cvx RC) //; case: (cf_cvx cf m) => //= B.
set c1 := [forall i, _]; set c2 := [forall i, _].
have -> : c1 = c2.
  apply/forallP/forallP => H i; apply/forallP => j; apply/implyP => E.
    have := forallP (H ((t^-1)%g i)) ((t^-1)%g j); rewrite ren_get // !permKV mxE !permKV => /implyP; exact.
  by move: E; rewrite ren_get // mxE => E; have := forallP (H (t i)) (t j) => /implyP; apply.
case: ifP => //= _; congr Ok; apply/matrixP => i j; by rewrite !mxE ren_get.
Qed.

Lemma solve_B_rename (m : model) rnd rnd' : square p (mA m) -> nonneg (mA m) ->
  solve_B cf' (rm m) (both rnd) (both rnd') = res_map both (solve_B cf m rnd rnd').
Proof.
move=> SA NA; rewrite /solve_B (rc_solver RC); case: (cf_solver cf).
- exact: solve_B_cvx_rename. - exact: solve_B_grad_rename. - exact: solve_B_adaptive_rename.
Qed.

Local Notation cp := (col_perm t).
Lemma Ns_rename B k : Ns cf' (both B) k = both (Ns cf B k).
Proof. by rewrite /Ns (rc_sigmas RC) rmxE !bothM -both_tr bothB both1 -both_tr. Qed.
Lemma T_rename ga (s : 'M[F]_(e, l)) x a k : T_gamma (cp ga) s x a k = both (T_gamma ga s x a (t k)).
Proof. by rewrite /T_gamma; apply/matrixP => i j; rewrite !mxE !(inj_eq perm_inj). Qed.

Lemma gamma_gradient_rename (m : model) ga : square p (mA m) -> nonneg (mA m) ->
  gamma_gradient cf' (rm m) (cp ga) = res_map cp (gamma_gradient cf m ga).
Proof.
move=> SA NA; apply: (@bind_map _ _ _ _ rm); first exact: new_model_rename.
move=> nm _; apply: bind_inv => Ms Ms' H; congr Ok; apply/matrixP => a k; rewrite !mxE tot_rename.
congr (_ / _); apply: eq_bigr => x _; rewrite (rc_n_obs RC); congr (_ * _).
by rewrite /= T_rename Ns_rename H -!bothM !both_trace.
Qed.
Lemma gamma_loss_rename (m : model) ga : square p (mA m) -> nonneg (mA m) ->
  gamma_loss cf' (rm m) (cp ga) = gamma_loss cf m ga.
Proof.
move=> SA NA; apply: (@bind_eq _ _ _ rm); first exact: new_model_rename.
by move=> x _; exact: mscore_rename.
Qed.
Lemma cpB a (X Y : 'M[F]_(a, p)) c : cp X - c *: cp Y = cp (X - c *: Y).
Proof. by apply/matrixP => i j; rewrite !mxE. Qed.
Lemma solve_gamma_rename (m : model) : square p (mA m) -> nonneg (mA m) ->
  solve_gamma cf' (rm m) = res_map cp (solve_gamma cf m).
Proof.
move=> SA NA; apply: (@bind_map _ _ _ _ (fun r => (cp r.1, r.2))) => //.
rewrite (rc_score RC) (rc_rate RC) (rc_fuel RC) -[mgamma (rm m)]/(cp (mgamma m)); apply: (@gd_map F _ _ cp) => //.
- by move=> x c g'; exact: cpB.
- by move=> x; exact: gamma_loss_rename.
- by move=> x; exact: gamma_gradient_rename.
Qed.

Lemma memb_rename (j : 'I_p) I : memb j (List.map f I) = memb (t j) I.
Proof.
rewrite -gt; apply/idP/idP => /memb_In H; apply/memb_In.
  by move: H => /List.in_map_iff [x [<-]]; rewrite (gf _ _ _ R).
by apply/List.in_map_iff; exists (g j); rewrite (fg _ _ _ R).
Qed.

Lemma average_rename a (c c' : pred 'I_p) (X : 'M[F]_(a, p)) : (forall j, c' j = c (t j)) -> average_cols c' (cp X) = cp (average_cols c X).
Proof.
move=> H; apply/matrixP => i j; rewrite !mxE H; case: ifP => // _; congr (_ / _); by apply: eq_bigr => k _; rewrite mxE.
Qed.

Let ph (x : 'M[F]_(e, p) * 'M[F]_(e, l)) := (cp x.1, x.2).
Lemma rest_gradient_rename (m : model) I x : square p (mA m) -> nonneg (mA m) ->
  rest_gradient cf' (rm m) (List.map f I) (ph x) = res_map ph (rest_gradient cf m I x).
Proof.
move=> SA NA; apply: (@bind_map _ _ _ _ rm); first exact: new_model_rename.
move=> nm _; apply: bind_inv => Ms Ms' H; congr Ok; rewrite /ph /= (rc_psi_fixed RC) tot_rename; congr (_, _).
  rewrite -(average_rename (c' := fun j : 'I_p => ~~ memb j (List.map f I))) => [|j]; last by rewrite memb_rename.
  congr average_cols; apply/matrixP => y j; rewrite [LHS]mxE [RHS]mxE [in RHS]mxE (rc_n_obs RC); congr (_ * _).
  by rewrite H Ns_rename -!bothM -bothB mxE.
set a := (\matrix_(y, k) _); set b := (\matrix_(y, k) _); suff -> : a = b by [].
apply/matrixP => y k; rewrite [LHS]mxE [RHS]mxE (rc_n_obs RC); congr (_ * _) => /=.
have -> : \matrix_(i, j) (cp (mgamma m) k i * cp (mgamma m) k j) = both (\matrix_(i, j) (mgamma m k i * mgamma m k j)).
  by apply/matrixP => i j; rewrite !mxE.
by rewrite H Ns_rename -!bothM !both_trace.
Qed.
Lemma rest_loss_rename (m : model) x : square p (mA m) -> nonneg (mA m) -> rest_loss cf' (rm m) (ph x) = rest_loss cf m x.
Proof.
move=> SA NA; apply: (@bind_eq _ _ _ rm); first exact: new_model_rename.
by move=> y _; exact: mscore_rename.
Qed.

Lemma has_entries a b (P : pred F) (X : 'M[F]_(a, b)) : has P (entries X) = [exists i, exists j, P (X i j)].
Proof.
apply/hasP/existsP => [[x /allpairsP [[i j] [_ _ ->]] H]|[i /existsP [j H]]]; first by exists i; apply/existsP; exists j.
by exists (X i j) => //; apply/allpairsP; exists (i, j); rewrite !mem_enum.
Qed.
Lemma has_cp (P : pred F) (X : 'M[F]_(e, p)) : has P (entries (cp X)) = has P (entries X).
Proof.
rewrite !has_entries; apply: eq_existsb => i; apply/existsP/existsP => [[j]|[j H]]; first by rewrite mxE; exists (t j).
by exists ((t^-1)%g j); rewrite mxE permKV.
Qed.

Lemma solve_rest_rename (m : model) I : square p (mA m) -> nonneg (mA m) ->
  solve_rest cf' (rm m) (List.map f I) = res_map ph (solve_rest cf m I).
Proof.
move=> SA NA; apply: (@bind_map _ _ _ _ (fun r => (ph r.1, r.2))) => //.
rewrite (rc_score RC) (rc_rate RC) (rc_fuel RC) /rest_bounds (rc_psi_max RC).
rewrite -[(momegas (rm m), mpsis (rm m))]/(ph (momegas m, mpsis m)); apply: (@gd_map _ _ _ ph) => [x c g'|x|x|x]; first by rewrite /sub2 /ph /= cpB.
- by rewrite /in_bounds /= !has_cp.
- exact: rest_loss_rename.
- exact: rest_gradient_rename.
Qed.

(** Initialisation *)
Lemma avg_rename : avg_cov cf' = both (avg_cov cf).
Proof.
rewrite /avg_cov tot_rename bothZ both_sum; congr (_ *: _); apply: eq_bigr => k _.
by rewrite bothZ (rc_sigmas RC) (rc_n_obs RC).
Qed.
Lemma both_quad X (x : 'cV[F]_p) : x^T *m both X *m x = (row_perm t^-1 x)^T *m X *m row_perm t^-1 x.
Proof.
apply/matrixP => a b; rewrite !mxE -[RHS]sumt; apply: eq_bigr => i _; rewrite !mxE permK; congr (_ * _).
by rewrite -[RHS]sumt; apply: eq_bigr => j _; rewrite !mxE permK.
Qed.
Lemma both_posdef X : posdef X -> posdef (both X).
Proof.
move=> [S P]; split; first by rewrite both_tr S.
move=> x Nx; rewrite both_quad; apply: P; apply: contra Nx => /eqP E; apply/eqP/matrixP => i j.
by have := congr1 (fun Z : 'cV[F]_p => Z (t i) j) E; rewrite !mxE permK.
Qed.

Lemma initialize_B_rename A : (0 < e)%N -> (forall k, posdef (cf_sigmas cf k)) -> (forall k, (0 < cf_n_obs cf k)%N) -> square p A ->
  initialize_B cf' (ren A) = res_map both (initialize_B cf A).
Proof.
move=> e0 Ps n0 SA.
have Ps' k : posdef (cf_sigmas cf' k) by rewrite (rc_sigmas RC); apply: both_posdef.
have n0' k : (0 < cf_n_obs cf' k)%N by rewrite (rc_n_obs RC).
have AP := avg_posdef e0 Ps n0; have AP' := avg_posdef e0 Ps' n0'.
have [B EB] : exists B, initialize_B cf A = Ok B by apply: init_cols_ok.
have [B' EB'] : exists B, initialize_B cf' (ren A) = Ok B by apply: init_cols_ok.
have [SB NB] := initialize_B_normal (proj1 AP) EB; have [SB' NB'] := initialize_B_normal (proj1 AP') EB'.
rewrite EB EB' /=; congr Ok; apply/matrixP => i j; apply/eqP; rewrite -subr_eq0.
have Edge (u v : 'I_p) : edge (ren A) u v <-> edge A (t u) (t v) by rewrite (rename_edge _ _ _ R) // !gt.
pose D := col j (B' - both B).
have DS u : D u 0 != 0 -> edge (ren A) u j.
  move=> N0; case: (boolP (B' u j == 0)) => [/eqP E|/SB' //]; apply/Edge; apply: SB.
  by move: N0; rewrite !mxE E sub0r oppr_eq0.
have DN (u : 'I_p) : edge (ren A) u j -> (avg_cov cf' *m D) u 0 = 0.
  move=> E; have -> : (avg_cov cf' *m D) u 0 = (avg_cov cf' *m B') u j - (avg_cov cf' *m both B) u j.
    by rewrite /D colE mulmxA -colE mulmxBr !mxE.
  have -> : (avg_cov cf' *m both B) u j = (avg_cov cf *m B) (t u) (t j) by rewrite avg_rename -bothM mxE.
  by rewrite (NB' _ _ E) (NB _ _ (proj1 (Edge _ _) E)) avg_rename mxE subrr.
have D0 : D = 0.
  apply/eqP; apply: contraT => /(proj2 AP'); rewrite -mulmxA mxE bigop.big1 ?ltxx // => u _; rewrite [D^T 0 u]mxE.
  by case: (boolP (D u 0 == 0)) => [/eqP ->|/DS /DN ->]; rewrite ?mul0r ?mulr0.
by have := congr1 (fun Z : 'cV[F]_p => Z i 0) D0; rewrite !mxE => ->.
Qed.

Lemma initialize_gamma_rename B : initialize_gamma cf' (both B) = res_map cp (initialize_gamma cf B).
Proof.
rewrite /initialize_gamma avg_rename.
have -> : (1%:M - (both B)^T) *m both (avg_cov cf) *m (1%:M - (both B)^T)^T = both ((1%:M - B^T) *m avg_cov cf *m (1%:M - B^T)^T).
  by rewrite !bothM -both_tr bothB both1 -both_tr.
rewrite -rmxE (rc_svd RC) (rc_sqrt RC); case: ifP => //= _; congr Ok; apply/matrixP => i j; rewrite !mxE.
by case: insub => // k; rewrite !mxE.
Qed.
Lemma initialize_omegas_rename B I : initialize_omegas cf' (both B) (List.map f I) = cp (initialize_omegas cf B I).
Proof.
have E i : (1%:M - (both B)^T) *m cf_sigmas cf' i *m (1%:M - (both B)^T)^T = both ((1%:M - B^T) *m cf_sigmas cf i *m (1%:M - B^T)^T).
  exact: Ns_rename.
apply/matrixP => i j; rewrite [LHS]mxE [RHS]mxE [in RHS]mxE memb_rename; case: ifP => _.
  by rewrite [LHS]mxE [in RHS]mxE E mxE.
by rewrite tot_rename; congr (_ / _); apply: eq_bigr => k _; rewrite mxE [in RHS]mxE E mxE (rc_n_obs RC).
Qed.

Lemma initial_model_rename A I : (0 < e)%N -> (forall k, posdef (cf_sigmas cf k)) -> (forall k, (0 < cf_n_obs cf k)%N) -> square p A -> nonneg A ->
  initial_model cf' (ren A) (List.map f I) = res_map rm (initial_model cf A I).
Proof.
move=> e0 Ps n0 SA NA; apply: (@bind_map _ _ _ _ both); first exact: initialize_B_rename.
move=> B _; apply: (@bind_map _ _ _ _ cp); first exact: initialize_gamma_rename.
by move=> ga _; rewrite initialize_omegas_rename; exact: new_model_rename.
Qed.

(** Rounds *)
Lemma copy_rename h h' (m : model) : square p (mA m) -> nonneg (mA m) -> copy_model h' (rm m) = res_map rm (copy_model h m).
Proof. by move=> SA NA; exact: new_model_rename. Qed.
Lemma copy_A h (m m' : model) : copy_model h m = Ok m' -> mA m' = mA m.
Proof. by rewrite /copy_model /new_model; case: ifP => // _; case: is_dag => //= d; case: ifP => // _; case: ifP => // _ [<-]. Qed.

Let k3 (r : model * F * F) := (rm r.1.1, r.1.2, r.2).
Lemma round_rename I rnd (pm : model) : square p (mA pm) -> nonneg (mA pm) ->
  round cf' (List.map f I) (rmx rnd.1, rmx rnd.2) (rm pm) = res_map k3 (round cf I rnd pm).
Proof.
move=> SA NA; apply: (@bind_map _ _ _ _ rm); first exact: copy_rename.
move=> c0 /copy_A E0; have SA0 : square p (mA c0) by rewrite E0. have NA0 : nonneg (mA c0) by rewrite E0.
apply: (@bind_map _ _ _ _ both); first exact: solve_B_rename.
move=> nB _; apply: (@bind_map _ _ _ _ cp); first exact: (@solve_gamma_rename (set_B c0 nB)).
move=> ga _; apply: (@bind_map _ _ _ _ ph); first exact: (@solve_rest_rename (set_gamma (set_B c0 nB) ga)).
move=> x _; apply: bind_same; first by rewrite /= rmxE -bothB amax_rename.
move=> d _; apply: bind_same; first exact: (@mscore_rename (set_rest (set_gamma (set_B c0 nB) ga) x)).
by [].
Qed.
Lemma round_A I rnd (pm cm : model) cs d : round cf I rnd pm = Ok (cm, cs, d) -> mA cm = mA pm.
Proof.
rewrite /round; case E : copy_model => [c0|] //=; case: solve_B => [nB|] //=; case: solve_gamma => [ga|] //=.
case: solve_rest => [x|] //=; case: amax => [d0|] //=; case: mscore => [s|] //= [<- _ _] /=; exact: copy_A E.
Qed.

Let k4 (r : option (model * F)) := omap (fun x => (rm x.1, x.2)) r.
Lemma alt_loop_rename k I rnd i dist flucs (pm : model) ps cur : square p (mA pm) -> nonneg (mA pm) ->
  alt_loop cf' k (List.map f I) (rename_draws t rnd) i dist flucs (rm pm) ps (k4 cur) =
  res_map k4 (alt_loop cf k I rnd i dist flucs pm ps cur).
Proof.
elim: k i dist flucs pm ps cur => [|k IH] i dist flucs pm ps cur SA NA /=; rewrite /continue (rc_dist RC) (rc_max_iter RC) (rc_max_fluct RC).
  by case: ifP.
case: ifP => // _; apply: (@bind_map _ _ _ _ k3); first exact: round_rename.
move=> [[cm cs] d] E /=; rewrite (rc_fluct RC); have EA := round_A E.
by apply: (IH _ _ _ _ _ (Some (cm, cs))); rewrite EA.
Qed.

Lemma rename_inj A B : square p A -> square p B -> ren A = ren B -> A = B.
Proof. by move=> SA SB E; rewrite -(back_rename p f g R A SA) -(back_rename p f g R B SB) E. Qed.
Lemma mateqb_rename A B : square p A -> square p B -> mateqb (ren A) (ren B) = mateqb A B.
Proof.
move=> SA SB; have SA' := rename_square p g A; have SB' := rename_square p g B.
by apply/(mateqbP SA' SB')/(mateqbP SA SB) => [/(rename_inj SA SB)|->].
Qed.

Hypothesis e0 : (0 < e)%N.
Hypothesis Ps : forall k, posdef (cf_sigmas cf k).
Hypothesis n0 : forall k, (0 < cf_n_obs cf k)%N.

Lemma fit_rename A I init rnd : square p A -> nonneg A -> (forall m, init = Some m -> square p (mA m)) ->
  fit cf' (ren A) (List.map f I) (omap rm init) (rename_draws t rnd) = rename_result g t (fit cf A I init rnd).
Proof.
move=> SA NA SI; apply: bind_same; first exact: (is_dag_rename _ _ _ R).
move=> d _; case: ifP => // _; apply: (@bind_map _ _ _ _ rm).
  case: init SI => [m|] SI /=; last exact: initial_model_rename.
  by rewrite mateqb_rename //; [case: ifP|apply: SI].
move=> m Em; have EA : mA m = A.
  case: init SI Em => [m0|] SI; first by case: (mateqbP (SI _ erefl) SA) => // E [<-].
  rewrite /initial_model; case: initialize_B => [B|] //=; case: initialize_gamma => [ga|] //=.
  by rewrite /new_model; case: ifP => // _; case: is_dag => //= d0; case: ifP => // _; case: ifP => // _ [<-].
apply: bind_same; first exact: mscore_rename.
move=> s _; apply: (@bind_map _ _ _ _ k4).
  by rewrite (rc_max_iter RC); apply: (alt_loop_rename _ _ _ _ _ _ _ None); rewrite EA.
by case.
Qed.

(** The cache *)
Definition rename_cache (c : cache model F) : cache model F :=
  MkCache (map ren (cAs c)) (map (List.map f) (cIs c)) (cscores c) (map rm (cmodels c)).
Lemma set_eqb_rename I J : set_eqb (List.map f I) (List.map f J) = set_eqb I J.
Proof.
have H K L : incl (List.map f K) (List.map f L) <-> incl K L.
  split=> H x Hx; last by move: Hx => /List.in_map_iff [y [<- /H]]; exact: List.in_map.
  by have /List.in_map_iff [y [/(f_inj _ _ _ R) ->]] := H _ (List.in_map f _ _ Hx).
by apply/set_eqbP/set_eqbP => -[]; rewrite /same_set !H.
Qed.
Lemma nth_Is (c : cache model F) k : nth [::] (map (List.map f) (cIs c)) k = List.map f (nth [::] (cIs c) k) :> seq nat.
Proof. by move: (cIs c) k; elim=> [|x s IH] [|k] /=. Qed.

Definition sq (c : cache model F) : Prop := forall k, (k < size (cAs c))%N -> square p (nth [::] (cAs c) k).
Lemma find_rename c A I : sq c -> square p A -> find (rename_cache c) (ren A) (List.map f I) = find c A I.
Proof.
move=> SC SA; rewrite /find [cAs (rename_cache c)]/= [cIs (rename_cache c)]/= size_map.
have EI k : set_eqb (nth [::] (map (List.map f) (cIs c)) k) (List.map f I) = set_eqb (nth [::] (cIs c) k) I.
  by rewrite nth_Is set_eqb_rename.
have -> : [seq k <- iota 0 (size (cAs c)) | mateqb (ren A) (nth [::] (map ren (cAs c)) k)] =
          [seq k <- iota 0 (size (cAs c)) | mateqb A (nth [::] (cAs c) k)].
  apply: eq_in_filter => k; rewrite mem_iota add0n => /andP [_ Hk].
  by rewrite (nth_map [::]) // mateqb_rename //; apply: SC.
case: [seq k <- _ | _] => [|i [|j r]]; case: (cAs c) => // a s; first by rewrite /= EI.
rewrite size_map [size (map _ _)]size_map.
set K := i :: j :: r.
have -> : [seq k <- iota 0 (size K) | set_eqb (nth [::] [seq nth [::] (map (List.map f) (cIs c)) i | i <- K] k) (List.map f I)] =
          [seq k <- iota 0 (size K) | set_eqb (nth [::] [seq nth [::] (cIs c) i | i <- K] k) I].
  by apply: eq_in_filter => k; rewrite mem_iota add0n => /andP [_ Hk]; rewrite !(nth_map 0%N) // EI.
by [].
Qed.

Lemma read_rename c A I : sq c -> square p A -> read (rename_cache c) (ren A) (List.map f I) = res_map (omap (fun x => (rm x.1, x.2))) (read c A I).
Proof.
move=> SC SA; apply: bind_same; first exact: find_rename.
move=> [k|] _ //=; have -> : List.nth_error (map rm (cmodels c)) k = omap rm (List.nth_error (cmodels c) k).
  by move: (cmodels c) k; elim=> [|x s IH] [|k] /=.
by case: List.nth_error => //= m; case: List.nth_error.
Qed.
Lemma write_rename h h' c A I (m : model) s : sq c -> square p A -> square p (mA m) -> nonneg (mA m) ->
  write (@copy_model F h' p l e) (rename_cache c) (ren A) (List.map f I) (rm m) s =
  let r := write (@copy_model F h p l e) c A I m s in (rename_cache r.1, r.2).
Proof.
move=> SC SA SM NM; rewrite /write find_rename //; case: find => [[k|]|x] //=.
by rewrite (copy_rename h h') //; case: copy_model => [m'|x] /=; rewrite /rename_cache /= !map_rcons.
Qed.
Lemma write_sq h c A I (m : model) s : sq c -> square p A -> sq (write (@copy_model F h p l e) c A I m s).1.
Proof.
move=> SC SA; have Q : forall k, (k < size (rcons (cAs c) A))%N -> square p (nth [::] (rcons (cAs c) A) k).
  by move=> k; rewrite size_rcons ltnS nth_rcons => Hk; case: ltnP => H; [exact: SC|have /eqP -> : k == size (cAs c) by rewrite eqn_leq Hk H]; rewrite ?eqxx.
by rewrite /write; case: find => [[k|]|x] //=; case: copy_model.
Qed.

Definition osq (st : option (cache model F)) : Prop := forall c, st = Some c -> sq c.
Lemma do_call_rename st c : osq st -> proper c ->
  let r := do_call cf st c in
  do_call cf' (omap rename_cache st) (rename_call f g t c) = (omap rename_cache r.1, rename_result g t r.2) /\ osq r.1.
Proof.
move=> Q [SA NA SI]; rewrite /do_call !score_dagE /rename_call.
case: c SA NA SI => A I init rnd /= SA NA SI.
have G : go cf' (omap rename_cache st) (ren A) (List.map f I) (omap rm init) (rename_draws t rnd) =
    (omap rename_cache (go cf st A I init rnd).1, rename_result g t (go cf st A I init rnd).2) /\ osq (go cf st A I init rnd).1.
  rewrite /go fit_rename //; case E : fit => [[m s]|x] //=.
  have [[_ EA _ _] _] := fit_facts SA NA SI E.
  case: st Q => [c0|] Q //=; rewrite (write_rename (cf_h cf)) ?EA //; last exact: Q.
  have := @write_sq (cf_h cf) c0 A I m s (Q _ erefl) SA.
  case: write => c' [u|x] /= W; (split; first by []) => c1 [<-]; exact: W.
case: init {SI} G => [m|] G //; case: st Q G => [c0|] Q G //.
rewrite /= in G *; rewrite read_rename //; last exact: Q.
by case: read => [[r|]|x].
Qed.

Lemma run_rename cs st : osq st -> List.Forall (@proper F p l e) cs ->
  run cf' (omap rename_cache st) (map (rename_call f g t) cs) = omap rename_cache (run cf st cs) /\ osq (run cf st cs).
Proof.
elim: cs st => [|c cs IH] st Q G //=; have [E1 E2] := do_call_rename Q (List.Forall_inv G).
by rewrite E1; apply: IH => //; exact: List.Forall_inv_tail G.
Qed.

Lemma names_calls caching cs c : List.Forall (@proper F p l e) cs -> proper c ->
  (do_call cf' (run cf' (fresh F p l e caching) (List.map (rename_call f g t) cs)) (rename_call f g t c)).2 =
  rename_result g t (do_call cf (run cf (fresh F p l e caching) cs) c).2.
Proof.
move=> G PR; have Q : osq (fresh F p l e caching) by case: caching => c0 // [<-].
have E0 : fresh F p l e caching = omap rename_cache (fresh F p l e caching) by clear; case: caching.
have [E1 Q1] := run_rename Q G; have [E2 _] := do_call_rename Q1 PR.
by rewrite {1}E0 E1 E2.
Qed.
End Names.

(** Every Score object has a renamed one. *)
Section Exists.
Variables (F : realFieldType) (p l e : nat) (f g : nat -> nat) (t : 'S_p) (cf : conf F p l e).
Hypothesis N : names f g t.
Let R : renaming p f g := proj1 N.

Lemma renamed_conf_exists : exists cf', renamed_conf g t cf cf'.
Proof.
have IK (X : 'M[F]_p) : rename_mx t^-1 (rename_mx t X) = X by apply/matrixP => i j; rewrite !mxE !permKV.
have MK (m : model F p l e) : square p (mA m) -> rename_model f t^-1 (rename_model g t m) = m.
  case: m => A B ga o s IB /= SA; rewrite /rename_model /= !IK (back_rename p f g R) //.
  by congr MkModel; apply/matrixP => i j; rewrite !mxE permKV.
exists (Conf (cf_log cf) (cf_h cf) (fun X => rename_mx t (cf_sqrtm cf (rename_mx t^-1 X)))
  (fun m => omap (rename_mx t) (cf_cvx cf (rename_model f t^-1 m)))
  (fun X => (row_perm t (cf_svd cf (rename_mx t^-1 X)).1, (cf_svd cf (rename_mx t^-1 X)).2)) (cf_sqrt cf)
  (fun X => cf_finite cf (rename_mx t^-1 X)) (fun k => rename_mx t (cf_sigmas cf k)) (cf_n_obs cf) (cf_psi_max cf) (cf_psi_fixed cf)
  (cf_max_iter cf) (cf_threshold_dist_B cf) (cf_threshold_fluctuation cf) (cf_max_fluctuations cf) (cf_threshold_score cf)
  (cf_learning_rate cf) (cf_solver cf) (cf_fuel cf)).
by constructor=> //= [X|m SA|X|X]; rewrite ?IK ?MK.
Qed.
End Exists.

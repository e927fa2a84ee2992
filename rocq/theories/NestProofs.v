(** Larger graphs, targets and numbers of latents explain as much (C138). *)
From Coq Require Import ZArith List.
From mathcomp Require Import all_ssreflect all_algebra.
From Verif Require Import Base GraphModel GraphSpec ListModel NumSpec NumModel ScoreModel CacheSpec ScoreSpec MainModel MainSpec NestSpec PruneProofs PruneIProofs.
Set Implicit Arguments.
Unset Strict Implicit.
Unset Printing Implicit Defensive.
Import Order.Theory GRing.Theory Num.Theory.
Local Open Scope ring_scope.

Section Same.
Variables (F : realFieldType) (log : F -> F) (p l l' e : nat).
Lemma score_same (m : model F p l e) (m' : model F p l' e) sigmas n_obs :
  (forall i, mnoise m' i = mnoise m i) -> mI_B m' = mI_B m -> score log m' sigmas n_obs = score log m sigmas n_obs.
Proof.
move=> EN EB; rewrite /score /inv_noise (_ : [forall i, mnoise m' i \in unitmx] = [forall i, mnoise m i \in unitmx]); last first.
  by apply: eq_forallb => i; rewrite EN.
case: ifP => //= _; congr Ok; elim: (enum 'I_e) (0 : F) => [|i s IH] x //=.
by rewrite IH EN EB.
Qed.
Lemma cov_same (m : model F p l e) (m' : model F p l' e) : (forall i, mnoise m' i = mnoise m i) -> mB m' = mB m ->
  (exists x, covariances m = Err x /\ covariances m' = Err x) \/
  exists S S', [/\ covariances m = Ok S, covariances m' = Ok S' & forall i, S' i = S i].
Proof.
move=> EN EB; rewrite /covariances EB; case: ifP => _; last by left; eexists.
by right; eexists; eexists; split; [reflexivity | reflexivity | move=> i /=; rewrite EN].
Qed.
End Same.

Section Nest.
Variables (F : realFieldType) (log : F -> F) (p e : nat) (psi_max : option F) (psi_fixed : bool).
Lemma more_latents (l d : nat) (g : 'M[F]_(l, p)) (o : 'M[F]_(e, p)) (s : 'M[F]_(e, l)) (x : F) (i : 'I_e) :
  noise_cov (col_mx g (0 : 'M_(d, p))) o (row_mx s (const_mx x)) i = noise_cov g o s i.
Proof.
rewrite /noise_cov row_row_mx diag_mx_row tr_col_mx trmx0 mul_row_block !mul0mx !mulmx0 !addr0 mul_row_col mulmx0 addr0.
by [].
Qed.
Lemma psi_exists : (forall u, psi_max = Some u -> 0 < u) -> exists2 x : F, 0 < x & forall u, psi_max = Some u -> x < u.
Proof.
case: psi_max => [u|] H; last by exists 1; rewrite ?ltr01.
have u0 := H _ erefl; exists (u / 2%:R); first by rewrite divr_gt0 // ltr0n.
move=> _ [<-]; by rewrite ltr_pdivr_mulr ?ltr0n // mulr_natr mulr2n ltr_addl.
Qed.
Lemma nested (l l' : nat) A A' I I' (m : model F p l e) : (l <= l')%N -> subgraph A A' -> incl I I' ->
  (forall u, psi_max = Some u -> 0 < u) -> allowed psi_max psi_fixed A I m ->
  exists m' : model F p l' e, [/\ allowed psi_max psi_fixed A' I' m', mB m' = mB m, forall i, mnoise m' i = mnoise m i
    & forall sigmas n_obs, score log m' sigmas n_obs = score log m sigmas n_obs].
Proof.
move=> L SA SI U [EA SU EI [po ps HU] [HI HF]]; rewrite -(subnKC L); move: (l' - l)%N => d {L l'}.
have [x x0 xu] := psi_exists U.
pose m' := MkModel A' (mB m) (col_mx (mgamma m) (0 : 'M_(d, p))) (momegas m) (row_mx (mpsis m) (const_mx x)) (mI_B m).
have EN i : mnoise m' i = mnoise m i by exact: more_latents.
exists m'; split=> //; last by move=> sigmas n_obs; apply: score_same.
split=> //=; first by move=> i j /SU; rewrite -EA ?EA; exact: SA.
  split=> //= [i j|u Eu i j]; rewrite mxE; case: splitP => k _; rewrite ?mxE //; by [exact: ps | exact: HU | exact: xu].
split=> [j N|Ef j]; first by apply: HI => H; apply: N; exact: SI.
by move=> a b /=; rewrite !mxE; case: splitP => k _; rewrite ?mxE //; exact: HF.
Qed.
Lemma nested_optimum (l l' : nat) A A' I I' (m : model F p l e) (m' : model F p l' e) sigmas n_obs y y' :
  (l <= l')%N -> subgraph A A' -> incl I I' -> (forall u, psi_max = Some u -> 0 < u) ->
  allowed psi_max psi_fixed A I m -> optimal log psi_max psi_fixed sigmas n_obs A' I' m' ->
  score log m sigmas n_obs = Ok y -> score log m' sigmas n_obs = Ok y' -> y' <= y.
Proof.
move=> L SA SI U HM [_ HO] Ey Ey'; have [m2 [H2 _ _ E2]] := nested L SA SI U HM.
by apply: (HO m2 _ _ H2 Ey'); rewrite E2.
Qed.
End Nest.

Section Train.
Variables (F : realFieldType) (p l e : nat) (cf : conf F p l e).
Hypothesis U : forall u, cf_psi_max cf = Some u -> 0 < u.
Hypothesis OF : optimal_fits cf.
Local Notation opt := (optimal (cf_log cf) (cf_psi_max cf) (cf_psi_fixed cf) (cf_sigmas cf) (cf_n_obs cf)).

Lemma copy_same h (m m' : model F p l e) : same_params m m' -> copy_model h m = copy_model h m'.
Proof. by case=> E1 E2 E3 E4 E5; rewrite /copy_model E1 E2 E3 E4 E5. Qed.
Lemma fitted_optimal I m : fitted_for cf I m -> exists I' m1, [/\ same_set I I', copy_model (cf_h cf) m = Ok m1 & opt (mA m) I' m1].
Proof.
move=> [GA AA _ _ [_ [I' [rnd [m' [s [SI EF SP]]]]]]]; have [m1 E1 O1] := OF EF GA AA.
by exists I', m1; split=> //; rewrite -E1; symmetry; exact: copy_same.
Qed.
(** Two fits, the first for more edges and targets *)
Lemma fits_rise I I' m m' x x' : fitted_for cf I m -> fitted_for cf I' m' -> subgraph (mA m') (mA m) -> incl I' I ->
  training_score cf m x -> training_score cf m' x' -> x <= x'.
Proof.
move=> HM HM' SA SI [m1 E1 S1] [m1' E1' S1'].
have [J [n1 [HJ EN ON]]] := fitted_optimal HM; have [J' [n1' [HJ' EN' [AN' _]]]] := fitted_optimal HM'.
move: EN EN'; rewrite E1 E1' => -[?] [?]; subst n1 n1'.
apply: (nested_optimum (leqnn l) SA _ U AN' ON S1' S1) => j Hj.
by apply: (proj1 HJ); apply: SI; apply: (proj2 HJ').
Qed.
Lemma pruned_rising I ms : pruned ms -> (forall m, In m ms -> fitted_for cf I m) -> rising cf ms.
Proof.
move=> H; elim: H => [m _|m m' ms' i j _ [_ W] _ IH] HF us n n' vs x x' E.
  by case: us E => [|? [|? ?]].
case: us E => [[<- <- _]|? us [_ E]]; last by apply: (IH _ us n n' vs x x' E) => k Hk; apply: HF; right.
apply: (@fits_rise I I); [by apply: HF; left | by apply: HF; right; left | | by []].
by move=> a b; rewrite /edge W; case: ifP.
Qed.

Lemma prune_graphs_rising rnds fuel (s : sobj F p l e) Gs ms :
  some_weight cf -> reached cf s.1 -> Forall (graph p) Gs -> Gs <> [::] -> (p * p <= fuel)%N ->
  (prune_graphs cf rnds fuel true None s Gs).2 = Ok ms ->
  exists mss, ms = concat mss /\
    Forall2 (fun G c => rising cf c /\ exists m c', [/\ c = m :: c', mA m = G & edge_count G (size c')]) Gs mss.
Proof.
move=> W HS HG NG FU E.
have [[mss [E2 H2]]|[x [E2 _]]] := prune_graphs_chain rnds W HS HG NG FU; last by rewrite E in E2.
move: E2; rewrite E => -[Ec]; exists mss; split=> //.
have [_ /(_ _ E) FT] := prune_graphs_sub rnds fuel true HS HG.
have {}FT c m : In c mss -> In m c -> fitted_for cf (iota 0 p) m.
  by move=> Hc Hm; apply: (proj1 (FT m _)); rewrite Ec; apply/in_concat; exists c.
clear - U OF H2 FT; elim: H2 FT => [|G c Gs' mss' [m [c' [E1 E2 PR EC]]] _ IH] FT; constructor.
  split; last by exists m, c'.
  by apply: (pruned_rising PR) => n Hn; apply: (FT c) => //; left.
by apply: IH => d n Hd; apply: FT; right.
Qed.
Lemma prune_I_rising rnds argsort (s : sobj F p l e) G rs : reached cf s.1 -> graph p G -> sorts argsort ->
  (prune_I cf rnds argsort None s G).2 = Ok rs -> size rs = p.+1 /\ rising cf [seq r.1 | r <- rs].
Proof.
move=> HS HG SO E.
have [[rs' [m0 [order [f [E2 SZ _ _ H]]]]]|[x [E2 _]]] := prune_I_chain rnds HS HG SO; last by rewrite E in E2.
move: E2; rewrite E => -[?]; subst rs'; split=> // us m m' vs x x' EM.
have N1 : nth_error [seq r.1 | r <- rs] (length us) = Some m by rewrite EM; clear; elim: us.
have N2 : nth_error [seq r.1 | r <- rs] (length us).+1 = Some m' by rewrite EM; clear; elim: us.
have KP : ((length us).+1 <= p)%N.
  have := congr1 size EM; rewrite size_map SZ size_cat /= !addnS => -[EP].
  by apply: (@leq_trans (size us + size vs).+1); [rewrite ltnS leq_addr | rewrite -EP].
move: N1 N2; rewrite !nth_error_map.
case N1: (nth_error rs (length us)) => [[n J]|//] [En]; case N2: (nth_error rs (length us).+1) => [[n' J']|//] [En'].
move: En En'; rewrite /= => En En'; subst n n'.
have [Em HM HJ] := H _ _ _ (ltnW KP) N1; have [Em' HM' HJ'] := H _ _ _ KP N2.
apply: (fits_rise HM HM'); first by rewrite Em Em'.
move=> j /HJ' [jp Nj]; apply/HJ; split=> // Hj; apply: Nj.
have EK : firstn (length us) (firstn (length us).+1 order) = firstn (length us) order.
  by rewrite firstn_firstn PeanoNat.Nat.min_l //; apply/ssrnat.leP.
rewrite -EK in Hj; rewrite -(firstn_skipn (length us) (firstn (length us).+1 order)).
by apply: in_or_app; left.
Qed.
End Train.

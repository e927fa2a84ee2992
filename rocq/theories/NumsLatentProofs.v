(** The order of nums_latent (C110). *)
From Coq Require Import ZArith List Permutation.
From mathcomp Require Import all_ssreflect all_algebra.
From Verif Require Import Base GraphModel ListModel NumModel ScoreModel MainModel MainSpec NumsLatentSpec PruneProofs SelectProofs FitProofs.
Set Implicit Arguments.
Unset Strict Implicit.
Unset Printing Implicit Defensive.
Import Order.Theory GRing.Theory Num.Theory.
Local Open Scope nat_scope.
Local Open Scope ring_scope.

Section Draws.
Variables (F : realFieldType) (p l e : nat) (cf : conf F p l e).
Lemma alt_loop_draws k I rnd rnd' i d f pm ps cur : cf_solver cf = Cvx ->
  alt_loop cf k I rnd i d f pm ps cur = alt_loop cf k I rnd' i d f pm ps cur.
Proof.
move=> HC; elim: k i d f pm ps cur => [|k IH] i d f pm ps cur /=; case: continue => //.
have -> : round cf I (rnd i) pm = round cf I (rnd' i) pm by rewrite /round /solve_B HC.
by case: round => //= -[[cm cs] d']; apply: IH.
Qed.
Lemma fit_draws A I i rnd rnd' : cf_solver cf = Cvx -> fit cf A I i rnd = fit cf A I i rnd'.
Proof.
move=> HC; rewrite /fit; case: is_dag => //= -[] //=; case: (match i with Some _ => _ | None => _ end) => //= m.
by case: mscore => //= s; rewrite (alt_loop_draws _ _ rnd rnd').
Qed.
Variables (rnds rnds' : nat -> nat -> 'M[F]_p * 'M[F]_p).
Hypothesis HR : cf_solver cf = Cvx \/ rnds = rnds'.
Lemma sdag_draws s A I : sdag cf rnds s A I = sdag cf rnds' s A I.
Proof.
case: HR => [HC|->] //; rewrite /sdag /score_dag.
by rewrite (fit_draws _ _ _ (rnds s.2) (rnds' s.2) HC).
Qed.
Lemma prune_loop_draws fuel I s A m : prune_loop cf rnds fuel I s A m = prune_loop cf rnds' fuel I s A m.
Proof.
elim: fuel s A m => [|fuel IH] s A m //=; case: ifP => // _; case: weakest_edge => // -[i j]; rewrite sdag_draws.
by case: sdag => s' [r|x] //; rewrite ?sbindOk ?sbindErr ?IH.
Qed.
Lemma prune_graph_draws fuel prune t I s G : prune_graph cf rnds fuel prune t I s G = prune_graph cf rnds' fuel prune t I s G.
Proof.
rewrite /prune_graph sdag_draws; case: sdag => s' [r|x] //; rewrite !sbindOk; case: prune => //; case: t => [t|].
  by case: threshold_graph => // A; rewrite sdag_draws.
by rewrite prune_loop_draws.
Qed.
Lemma prune_graphs_draws fuel prune t s Gs : prune_graphs cf rnds fuel prune t s Gs = prune_graphs cf rnds' fuel prune t s Gs.
Proof.
rewrite /prune_graphs; case: Gs => // G Gs; move: (iota 0 _) (G :: Gs) => I {G} {}Gs.
elim: Gs s => //= G Gs IH s; rewrite prune_graph_draws.
by case: prune_graph => s' [r|x] //; rewrite ?sbindOk ?sbindErr ?IH.
Qed.
Lemma prune_I_draws argsort t s G : prune_I cf rnds argsort t s G = prune_I cf rnds' argsort t s G.
Proof.
rewrite /prune_I sdag_draws; case: sdag => s' [r|x] //; rewrite ?sbindOk ?sbindErr; case: t => [t|].
  by case: smax => // v; rewrite sdag_draws.
suff -> : forall I o s, prune_I_loop cf rnds s G I o = prune_I_loop cf rnds' s G I o by [].
move=> {s' r} I o {}s; elim: o I s => //= j js IH I s; rewrite sdag_draws.
by case: sdag => s' [r|x] //; rewrite ?sbindOk ?sbindErr ?IH.
Qed.
End Draws.

Section Order.
Variables (F : realFieldType) (p e : nat) (w : world F p e) (a : args F).
Local Notation entry := (entry F p e).
Hypothesis HR : same_draws w a.

Definition at_pos (n : nat) (x : entry) : entry := @Entry F p e n (en_h x) (en_score x) (en_graph x) (en_scores x) (en_obj x).
Definition at_res n (r : res entry) : res entry := bind r (fun x => Ok (at_pos n x)).
Lemma fit_h_pos tr tg prune t Gs n n' h : fit_h w a tr tg prune t Gs n h = at_res n (fit_h w a tr tg prune t Gs n' h).
Proof.
rewrite /fit_h; case: too_small => //.
rewrite (@prune_graphs_draws _ _ _ _ _ (w_rnds w n) (w_rnds w n')); last by case: HR => H; [left | right].
case: prune_graphs => s [ms|x] //=; case: test_scores => //= xs; by case: best_scoring.
Qed.
Lemma fit_I_pos tr ti t n x : fit_I w a tr ti t (at_pos n x) = fit_I w a tr ti t x.
Proof.
rewrite /fit_I /= (@prune_I_draws _ _ _ _ _ (w_rnds w n) (w_rnds w (en_pos x))) //.
by case: HR => H; [left | right].
Qed.

Variables (tr tg : seq (seq 'rV[F]_p)) (prune : bool) (t : option F) (Gs : seq mat).
Local Notation f := (fit_h w a tr tg prune t Gs).
Lemma table_total d n hs : (forall h, List.In h hs -> exists x, f 0 h = Ok x) -> exists d', table f d n hs = Ok d'.
Proof.
elim: hs d n => [|h hs IH] d n H /=; first by exists d.
have [x Ex] := H h (or_introl erefl); rewrite (fit_h_pos _ _ _ _ _ n 0) Ex /=.
by apply: IH => h' Hh'; apply: H; right.
Qed.
Lemma table_ok d n hs d' : table f d n hs = Ok d' -> forall h, List.In h hs -> exists x, f 0 h = Ok x.
Proof.
elim: hs d n => [|h hs IH] d n //= /(@bindOk _ _ _ _ _) [x Ex /IH H] h' [<-|/H //].
by move: Ex; rewrite (fit_h_pos _ _ _ _ _ n 0); case: (f 0 h) => // y _; exists y.
Qed.
Lemma last_index (hs : seq nat) h : List.In h hs ->
  exists k, List.nth_error hs k = Some h /\ forall k', (k < k')%N -> List.nth_error hs k' <> Some h.
Proof.
elim: hs => [|h' hs IH] // H; case: (List.in_dec PeanoNat.Nat.eq_dec h hs) => [/IH [k [E L]]|N].
  by exists k.+1; split=> // -[|k'] //= /L.
case: H => // ->; exists 0%N; split=> // -[|k'] //= _ E; apply: N; exact: nth_error_In E.
Qed.
(** The entries of the table, up to their positions, are the results for the elements of hs. *)
Lemma table_entries n hs d' : table f [::] n hs = Ok d' -> List.NoDup (List.map (@en_h F p e) d') /\
  (forall x, List.In x d' -> List.In (en_h x) hs /\ exists2 y, f 0 (en_h x) = Ok y & x = at_pos (en_pos x) y) /\
  forall h, List.In h hs -> exists2 x, List.In x d' & en_h x = h.
Proof.
move=> E; have fE n' h x : f n' h = Ok x -> en_h x = h /\ en_pos x = n' by apply: fit_hE.
have [D _ H1 H2] := @table_spec F p e _ fE [::] n hs d' (List.NoDup_nil _) E; split=> //; split=> [x /H1 [[]//|[k [Ek Ex _]]]|h /last_index [k [Ek Lk]]].
  split; first exact: nth_error_In Ek.
  move: Ex (Ex); rewrite {1}(fit_h_pos _ _ _ _ _ _ 0); case Ef : (f 0 (en_h x)) => [y|] //= [Ey] /fE [_ Ep].
  by exists y => //; rewrite -Ey.
by have [x [Ex Hx]] := H2 k h Ek Lk; exists x => //; have [] := fE _ _ _ Ex.
Qed.
Lemma select_same hs hs' d d' x : (forall h, List.In h hs <-> List.In h hs') -> table f [::] 0 hs = Ok d -> table f [::] 0 hs' = Ok d' ->
  select_h d = Ok x -> exists2 n, select_h d' = Ok (at_pos n x) & True.
Proof.
move=> HH Ed Ed' Ex; have [D [H1 H2]] := table_entries Ed; have [D' [H1' H2']] := table_entries Ed'.
have [[E0 E1]|[x1 [E1 I1 L1]]] := select_h_spec D; first by rewrite E1 in Ex.
move: Ex; rewrite E1 => -[Ex]; subst x1.
have [y Iy Ey] := H2' _ (proj1 (HH _) (proj1 (H1 _ I1))).
have [[E0 _]|[z [Ez Iz Lz]]] := select_h_spec D'; first by rewrite E0 in Iy.
(* each table has an entry with the number of the other's choice *)
have [u Iu Eu] := H2 _ (proj2 (HH _) (proj1 (H1' _ Iz))).
have same (v v' : entry) : List.In v d -> List.In v' d' -> en_h v = en_h v' -> exists n, v' = at_pos n v.
  move=> /H1 [_ [b Eb Vb]] /H1' [_ [b' Eb' Vb']] Ev; move: Eb'; rewrite -Ev Eb => -[Eb']; subst b'.
  by exists (en_pos v'); rewrite {1}Vb' Vb.
have [n1 Q1] := same _ _ I1 Iy (esym Ey); have [n2 Q2] := same _ _ Iu Iz Eu.
have Sz : en_score z = en_score u by rewrite Q2.
have Sy : en_score y = en_score x by rewrite Q1.
have Eh : en_h x = en_h z.
  have := L1 _ Iu; have := Lz _ Iy; rewrite Ey Eu Sy Sz => -[A1|[A1 B1]] [A2|[A2 B2]].
  - by move: (lt_trans A1 A2); rewrite ltxx.
  - by rewrite A2 ltxx in A1.
  - by rewrite A1 ltxx in A2.
  - by apply/eqP; rewrite eqn_leq B1 B2.
have [n3 Q3] := same _ _ I1 Iz Eh; exists n3 => //; by rewrite Ez Q3.
Qed.
End Order.

Section Entry.
Variables (F : realFieldType) (p e : nat) (w : world F p e) (a : args F).
Hypothesis HR : same_draws w a.
Variables (hs hs' : seq nat).
Hypothesis HH : forall h, List.In h hs <-> List.In h hs'.
Lemma fit_all_latents data ig prune tg ti seed r : fit_all w (with_latents a hs) data ig prune tg ti seed = Ok r ->
  fit_all w (with_latents a hs') data ig prune tg ti seed = Ok r.
Proof.
rewrite /fit_all; case: split_data => //= -[|tr [|sg [|si [|? ?]]]] //; case: (match ig with Some _ => _ | None => _ end) => //= Gs.
rewrite !fit_hs_table => /(@bindOk _ _ _ _ _) [d Ed /(@bindOk _ _ _ _ _) [x Ex Er]].
have HRa : same_draws w (with_latents a hs) by [].
have [d' Ed'] := table_total HRa [::] 0 (fun h Hh => table_ok HRa Ed (proj2 (HH h) Hh)).
rewrite -[fit_h w (with_latents a hs')]/(fit_h w (with_latents a hs)) Ed' /=.
have [n -> _] := select_same HRa HH Ed Ed' Ex; rewrite -Er /=; exact: (fit_I_pos HRa).
Qed.
Lemma class_latents candidates data prune seed r : equivalence_class w (with_latents a hs) candidates data prune seed = Ok r ->
  equivalence_class w (with_latents a hs') candidates data prune seed = Ok r.
Proof. by rewrite /equivalence_class => /(@bindOk _ _ _ _ _) [x Ex E]; rewrite (fit_all_latents Ex). Qed.
Lemma ges_latents data seed r : equivalence_class_w_ges w (with_latents a hs) data seed = Ok r ->
  equivalence_class_w_ges w (with_latents a hs') data seed = Ok r.
Proof. by rewrite /equivalence_class_w_ges => /(@bindOk _ _ _ _ _) [x Ex E]; rewrite (fit_all_latents Ex). Qed.
End Entry.

(** Termination of _fit and of the entry points. *)
From Coq Require Import ZArith QArith_base Lia List.
From mathcomp Require Import all_ssreflect all_algebra.
From Verif Require Import Base GraphModel GraphSpec ListModel NumModel NumSpec ScoreModel CacheSpec ScoreSpec GradSpec OptSpec MainModel MainSpec TermSpec.
From Verif Require Import TopoProofs ListProofs EdgeProofs NumProofs ScoreProofs PruneProofs PruneIProofs SelectProofs FitProofs TotalProofs ClassProofs TermProofs Term2Proofs.
Set Implicit Arguments.
Unset Strict Implicit.
Unset Printing Implicit Defensive.
Import Order.Theory GRing.Theory Num.Theory.
Local Open Scope nat_scope.
Local Open Scope ring_scope.

(** From some k on f k is r. *)
Definition ends (T : Type) (f : nat -> T) (r : T) : Prop := exists n, forall k, (n <= k)%N -> f k = r.
Lemma ends_ext (T : Type) (f g : nat -> T) r : (forall k, f k = g k) -> ends f r -> ends g r.
Proof. by move=> E [n H]; exists n => k /H <-. Qed.
Lemma ends_const (T : Type) (r : T) : ends (fun=> r) r.
Proof. by exists 0%N. Qed.
(** Eventually *)
Definition event (P : nat -> Prop) : Prop := exists n, forall k, (n <= k)%N -> P k.
Lemma event_and (P Q : nat -> Prop) : event P -> event Q -> event (fun k => P k /\ Q k).
Proof. by move=> [n Hn] [m Hm]; exists (maxn n m) => k; rewrite geq_max => /andP [/Hn ? /Hm ?]. Qed.
Lemma event_imp (P Q : nat -> Prop) : (forall k, P k -> Q k) -> event P -> event Q.
Proof. by move=> H [n Hn]; exists n => k /Hn /H. Qed.
Lemma event_ex (P : nat -> Prop) : event P -> exists k, P k.
Proof. by move=> [n Hn]; exists n; apply: Hn. Qed.

Section Obj.
Variables (F : realFieldType) (p l e : nat) (cf : conf F p l e).
Variable rnds : nat -> nat -> 'M[F]_p * 'M[F]_p.
Local Notation model := (model F p l e).
Local Notation sobj := (sobj F p l e).
Local Notation wf := (with_fuel cf).
Definition dag (A : mat) : Prop := graph p A /\ acyclic A.
(** Exceptions that may be raised *)
Variable ok : exn -> Prop.
Hypothesis OI : ok IndexError.
Hypothesis FT : forall A I n, dag A -> exists r, settles (fun k => fit (wf k) A I None (rnds n)) r /\ fine ok r.

Definition inv (s : sobj) : Prop := event (fun k => reached (wf k) s.1).
(** The outcome of a step of an object *)
Definition good_out (T : Type) (x : sobj * res T) : Prop := inv x.1 /\ fine ok x.2.
Definition good_end (T : Type) (f : nat -> sobj * res T) : Prop := exists x, ends f x /\ good_out x.

Lemma ends_sbind (T U : Type) (f : nat -> sobj * res T) (g : nat -> sobj -> T -> sobj * res U) :
  good_end f -> (forall s x, ends f (s, Ok x) -> inv s -> good_end (fun k => g k s x)) ->
  good_end (fun k => sbind (f k) (g k)).
Proof.
move=> [[s [x|y]] [[n Hn] [/= HI HE]]] HG; last first.
  by exists (s, Err y); split; [exists n => k /Hn -> | split=> // z [<-]; apply: HE].
have [r [[m Hm] Hr]] := HG s x (ex_intro _ n Hn) HI; exists r; split=> //.
by exists (maxn n m) => k; rewrite geq_max => /andP [/Hn -> /Hm].
Qed.
Lemma good_ret (T : Type) (s : sobj) (x : T) : inv s -> good_end (fun=> (s, Ok x)).
Proof. by move=> HI; exists (s, Ok x); split; [exact: ends_const | split]. Qed.

Lemma sdag_ends s A I : inv s -> dag A -> good_end (fun k => sdag (wf k) rnds s A I).
Proof.
move=> HI [GA AA]; have [r0 [[n Hn] Nr]] := FT I s.2 (conj GA AA).
have E k : (n <= k)%N -> sdag (wf k) rnds s A I = sdag (wf n) rnds s A I.
  by move=> Hk; rewrite /sdag /score_dag (Hn k Hk) (Hn n (leqnn n)).
exists (sdag (wf n) rnds s A I); split; first by exists n.
have [m Hm] := HI.
have R k : (maxn n m <= k)%N -> reached (wf k) (sdag (wf n) rnds s A I).1.1 /\
    forall x, (sdag (wf n) rnds s A I).2 = Err x -> r0 = Err x.
  rewrite geq_max => /andP [Hk1 Hk2]; rewrite -(E k Hk1).
  have [R1 R2] := @reached_call F p l e (wf k) (fun _ _ _ => True) (fun _ _ _ _ _ _ => Logic.I) (fun _ _ _ _ _ _ => Logic.I)
    (fun _ _ _ _ _ _ _ => Logic.I) s.1 A I (rnds s.2) (Hm k Hk2) GA.
  split=> //= x Ex; rewrite /sdag /= in Ex; rewrite Ex in R2; by rewrite -(Hn k Hk1).
split; first by exists (maxn n m) => k /R [].
by move=> y Ey; apply: Nr; have [_ RE] := R _ (leqnn _); apply: RE.
Qed.

Lemma sdag_fitted s A I s' m x : inv s -> dag A -> ends (fun k => sdag (wf k) rnds s A I) (s', Ok (m, x)) ->
  [/\ mA m = A, supported A (mB m) & (forall k, some_weight (wf k)) -> (exists i j, edge A i j) -> mB m <> 0].
Proof.
move=> HI [GA AA] HE; have [k [HK E]] := event_ex (event_and HI HE).
have [_] := @sdag_spec F p l e (wf k) rnds s A I HK GA; rewrite E /= => -[EA [_ _ SB _ _] H].
by split=> //; [rewrite -EA | move=> W; apply: H].
Qed.

Lemma prune_loop_ends I N : (forall k, some_weight (wf k)) -> forall c s A (m : model), (nnz A <= N)%coq_nat -> inv s -> dag A ->
  mA m = A -> supported A (mB m) -> ((exists i j, edge A i j) -> mB m <> 0) ->
  good_end (fun k => prune_loop (wf k) rnds (k - c) I s A m).
Proof.
move=> W; elim: N => [|N IH] c s A m HN HI [GA AA] EA SB B0.
  exists (s, Ok [::]); split; last by split.
  exists 0%N => k _; case: (k - c)%N => [|f]; rewrite ?prune_loop0 ?prune_loopS; case: (msum_pos GA) => // HE;
    have [i [j E]] := HE; have := @nnz_upd0 p _ _ _ (proj1 GA) E; lia.
case: (boolP (Z.ltb Z0 (msum A))) => HZ; last first.
  exists (s, Ok [::]); split; last by split.
  by exists 0%N => k _; case: (k - c)%N => [|f]; rewrite ?prune_loop0 ?prune_loopS (negbTE HZ).
have HE := elimT (msum_pos GA) HZ; have p0 := edge_p GA HE.
have [i [j [Ew [WE|[/(B0 HE) //]]]]] := weakest_edge_spec (mB m) p0.
have E : edge A i j by apply: SB; case: WE.
have GU := upd0_graph GA (ltn_ord i) (ltn_ord j); have SU := upd0_sub GA (ltn_ord i) (ltn_ord j).
have AU := sub_acyclic SU AA.
have NU := @nnz_upd0 p _ _ _ (proj1 GA) E.
pose g k s' (r : model * F) := sbind (prune_loop (wf k) rnds (k - c.+1) I s' (upd A i j Z0) r.1) (fun s ms => (s, Ok (r.1 :: ms))).
have [||x [[n Hn] Hx]] := @ends_sbind _ _ (fun k => sdag (wf k) rnds s (upd A i j Z0) I) g.
- by apply: sdag_ends.
- move=> s' [m' y] Hs' HI'; rewrite /g /=.
  have [EA' SB' B0'] := sdag_fitted HI (conj GU AU) Hs'.
  apply: ends_sbind; last by move=> s2 ms _ HI2; apply: good_ret.
  by apply: IH => //; [lia | apply: B0'].
exists x; split=> //; exists (maxn n c.+1) => k; rewrite geq_max => /andP [Hk Hc].
rewrite -(Hn k Hk); have -> : (k - c)%N = (k - c.+1).+1 by rewrite subnSK.
by rewrite prune_loopS HZ Ew.
Qed.

Lemma prune_graph_ends prune I s A : (prune = true -> forall k, some_weight (wf k)) -> inv s -> dag A ->
  good_end (fun k => prune_graph (wf k) rnds k prune None I s A).
Proof.
move=> W HI DA; rewrite /prune_graph; apply: ends_sbind; first exact: sdag_ends.
move=> s' [m x] Hs HI' /=; case: prune W => W /=; last exact: good_ret.
have [EA SB B0] := sdag_fitted HI DA Hs.
apply: ends_sbind; last by move=> s2 ms _ HI2; apply: good_ret.
have [y [Hy1 Hy2]] := @prune_loop_ends I (nnz A) (W erefl) 0 s' A m (le_n _) HI' DA EA SB (B0 (W erefl)).
by exists y; split=> //; apply: ends_ext Hy1 => k; rewrite subn0.
Qed.

Lemma prune_each_ends prune I Gs s : (prune = true -> forall k, some_weight (wf k)) -> inv s -> Forall dag Gs ->
  good_end (fun k => prune_each (wf k) rnds k prune None I s Gs).
Proof.
move=> W; elim: Gs s => [|G Gs IH] s HI HG; first exact: good_ret.
apply: (@ends_sbind _ _ (fun k => prune_graph (wf k) rnds k prune None I s G)
  (fun k s ms => sbind (prune_each (wf k) rnds k prune None I s Gs) (fun s ms' => (s, Ok (ms ++ ms'))))).
  by apply: prune_graph_ends => //; apply: Forall_inv HG.
move=> s' ms _ HI'; apply: ends_sbind; last by move=> s2 ms' _ HI2; apply: good_ret.
by apply: IH => //; apply: Forall_inv_tail HG.
Qed.

Lemma prune_graphs_ends prune Gs s : (prune = true -> forall k, some_weight (wf k)) -> inv s -> Forall dag Gs ->
  good_end (fun k => prune_graphs (wf k) rnds k prune None s Gs).
Proof.
move=> W HI; case: Gs => [|G Gs] HG; last exact: prune_each_ends.
by exists (s, Err IndexError); split; [exact: ends_const | split=> // y [<-]].
Qed.

Lemma prune_I_loop_ends A js : dag A -> forall s I, inv s -> good_end (fun k => prune_I_loop (wf k) rnds s A I js).
Proof.
move=> DA; elim: js => [|j js IH] s I HI; first exact: good_ret.
apply: (@ends_sbind _ _ (fun k => sdag (wf k) rnds s A (minus I [:: j]))
  (fun k s r => sbind (prune_I_loop (wf k) rnds s A (minus I [:: j]) js) (fun s rs => (s, Ok ((r.1, minus I [:: j]) :: rs))))).
  exact: sdag_ends.
move=> s' r _ HI'; apply: ends_sbind; first exact: IH.
by move=> s2 rs _ HI2; apply: good_ret.
Qed.

Lemma prune_I_ends argsort s A : inv s -> dag A -> good_end (fun k => prune_I (wf k) rnds argsort None s A).
Proof.
move=> HI DA; rewrite /prune_I; apply: ends_sbind; first exact: sdag_ends.
move=> s' r _ HI'; apply: ends_sbind; first exact: prune_I_loop_ends.
by move=> s2 rs _ HI2; apply: good_ret.
Qed.
End Obj.

(** Computations without state *)
Section Res.
Variable ok : exn -> Prop.
Hypothesis OI : ok IndexError.
Hypothesis OV : ok ValueError.
Hypothesis OL : ok OtherException.
Definition good_res (T : Type) (f : nat -> res T) : Prop := exists r, settles f r /\ fine ok r.
Lemma res_bind (T U : Type) (f : nat -> res T) (g : nat -> T -> res U) :
  good_res f -> (forall x, settles f (Ok x) -> good_res (fun k => g k x)) -> good_res (fun k => bind (f k) (g k)).
Proof.
move=> [[x|y] [[n Hn] HE]] HG; last by exists (Err y); split; [exists n => k /Hn -> | move=> z [<-]; apply: HE].
have [r [[m Hm] Hr]] := HG x (ex_intro _ n Hn); exists r; split=> //.
by exists (maxn n m) => k; rewrite geq_max => /andP [/Hn -> /Hm].
Qed.
Lemma res_const (T : Type) (r : res T) : fine ok r -> good_res (fun=> r).
Proof. by move=> H; exists r; split=> //; exists 0%N. Qed.
Lemma fine_bind (T U : Type) (x : res T) (f : T -> res U) : fine ok x -> (forall a, x = Ok a -> fine ok (f a)) -> fine ok (bind x f).
Proof. by case: x => [a|y] H1 H2 //=; [apply: H2 | move=> z [<-]; apply: H1]. Qed.
Lemma fine_ok (T : Type) (x : T) : fine ok (Ok x).
Proof. by []. Qed.

Lemma np_arg_fine (T : Type) (lt : T -> T -> bool) xs : fine ok (np_arg lt xs).
Proof. by case: xs => //= y [<-]. Qed.
Lemma best_scoring_fine (F : realFieldType) (T : Type) (ts : seq (F * T)) : fine ok (best_scoring ts).
Proof.
apply: fine_bind => [|i _]; first exact: np_arg_fine.
by case: List.nth_error => // y [<-].
Qed.
Lemma ins_sort_fine (F : realFieldType) (T : Type) (key : T -> F * nat) xs : fine ok (ins_sort key xs).
Proof.
elim: xs => [|x xs IH] //=; apply: fine_bind => // ys _; elim: ys {IH} => [|y ys IH] //=; apply: fine_bind => [|b _].
  by rewrite /tuple_lt; case: (key y) => ? ?; case: (key x) => ? ?; case: ifP => // _; case: ifP => // _ z [<-].
by case: b => //; apply: fine_bind.
Qed.
End Res.

Section Main.
Variables (F : realFieldType) (p e : nat) (w : world F p e) (a : args F).
Local Notation sample := (seq 'rV[F]_p).
Local Notation model := (model F p).
Local Notation entry := (entry F p e).
Local Notation wk := (w_with_fuel w).
Variable ok : exn -> Prop.
Hypothesis OI : ok IndexError.
Hypothesis OV : ok ValueError.
Hypothesis OL : ok OtherException.

Lemma test_scores_fine l (T : Type) fold (ms : seq (model l e * T)) : fine ok (test_scores w fold ms).
Proof.
elim: ms => [|mt ms IH] //=; apply: fine_bind => [|x _]; last exact: fine_bind.
by rewrite /score /inv_noise; case: ifP => // _ y [<-].
Qed.

Section Fold.
Variables (training test : seq sample) (prune : bool) (graphs : seq mat).
Hypothesis GG : Forall (dag p) graphs.
Definition fits (h : nat) : Prop :=
  (prune = true -> forall k, some_weight (train_conf (wk k) a training h)) /\
  forall A I n m, dag p A -> exists r, settles (fun k => fit (train_conf (wk k) a training h) A I None (w_rnds w n m)) r /\ fine ok r.

Lemma fit_h_ends n h : fits h -> good_res ok (fun k => fit_h (wk k) a training test prune None graphs n h).
Proof.
move=> [SW FT]; rewrite /fit_h; case: too_small; first by apply: res_const => y [<-].
have I0 : inv (train_conf w a training h) (new_sobj F p h e) by exists 0%N => k _; apply: reached0.
have [[s r] [[m Hm] [_ /= Hr]]] := @prune_graphs_ends F p h e (train_conf w a training h) (w_rnds w n) ok OI
  (fun A I k => FT A I n k) prune graphs _ SW I0 GG.
exists (bind r (fun ms => bind (test_scores w test [seq (m, mA m) | m <- ms]) (fun xs =>
    let xs := [seq (x.1, x.2.2) | x <- xs] in bind (best_scoring xs) (fun b => Ok (Entry n b.1 b.2 xs s))))).
split; first by exists m => k /Hm /=; rewrite -[with_fuel _ _]/(train_conf (wk k) a training h) => ->.
apply: fine_bind => // ms _; apply: fine_bind => [|xs _]; first exact: test_scores_fine.
by apply: fine_bind => //; apply: best_scoring_fine.
Qed.

Lemma fit_hs_ends hs : (forall h, List.In h hs -> fits h) -> forall d n,
  good_res ok (fun k => fit_hs (wk k) a training test prune None graphs d n hs).
Proof.
elim: hs => [|h hs IH] H d n; first exact: res_const.
apply: (@res_bind ok _ _ (fun k => fit_h (wk k) a training test prune None graphs n h)
  (fun k x => fit_hs (wk k) a training test prune None graphs (dict_set d x) n.+1 hs)).
  by apply: fit_h_ends; apply: H; left.
by move=> x _; apply: IH => h' Hh'; apply: H; right.
Qed.

Lemma fit_I_ends x : fits (en_h x) -> inv (train_conf w a training (en_h x)) (en_obj x) -> dag p (en_graph x) ->
  good_res ok (fun k => fit_I (wk k) a training test None x).
Proof.
move=> [_ FT] HI DG; rewrite /fit_I.
have [[s r] [[m Hm] [_ /= Hr]]] := @prune_I_ends F p (en_h x) e (train_conf w a training (en_h x)) (w_rnds w (en_pos x)) ok
  (fun A I k => FT A I (en_pos x) k) (w_argsort w) _ _ HI DG.
exists (bind r (fun rs => bind (test_scores w test rs) (fun xs =>
  bind (best_scoring xs) (fun b => Ok (existT (fun l => model l e) (en_h x) b.2.1, b.2.2, b.1))))).
split; first by exists m => k /Hm /=; rewrite -[with_fuel _ _]/(train_conf (wk k) a training (en_h x)) => ->.
apply: fine_bind => // ms _; apply: fine_bind => [|xs _]; first exact: test_scores_fine.
by apply: fine_bind => //; apply: best_scoring_fine.
Qed.

Lemma entry_inv d hs x : settles (fun k => fit_hs (wk k) a training test prune None graphs [::] 0 hs) (Ok d) -> List.In x d ->
  [/\ List.In (en_h x) hs, inv (train_conf w a training (en_h x)) (en_obj x) & dag p (en_graph x)].
Proof.
move=> [n Hn] Hx.
have G1 : Forall (graph p) graphs by apply: Forall_impl GG => G [].
have H k : (n <= k)%N -> [/\ List.In (en_h x) hs, reached (train_conf (wk k) a training (en_h x)) (en_obj x).1 & dag p (en_graph x)].
  move=> Hk; have := Hn k Hk; rewrite fit_hs_table => Ed.
  have D0 : List.NoDup (List.map (@en_h F p e) ([::] : seq entry)) by constructor.
  have [D1 _ D3 D4] := table_spec (@fit_hE F p e (wk k) a training test prune None graphs) D0 Ed.
  case: (D3 _ Hx) => [[//]|[i [Hi Fx Li]]]; rewrite add0n in Fx.
  have [R [G HIG [GE SG]]] := fit_h_reached G1 Fx.
  split=> //; first exact: nth_error_In Hi.
  split=> //; have /(_ G HIG) [_ AG] := proj1 (Forall_forall _ _) GG.
  by apply: (@sub_acyclic _ G) => //; case: prune SG {Ed D3 D4 Fx Hn} => // ->.
have [H1 _ H3] := H n (leqnn n); split=> //; by exists n => k /H [].
Qed.
End Fold.

Lemma fit_all_ends data ig prune seed training test_graph test_I graphs hs :
  split_data (w_shuffle w seed) [seq data k | k <- enum 'I_e] (a_folds a) = Ok [:: training; test_graph; test_I] ->
  (ig = Some graphs \/ ig = None /\ fit_ges w training = Ok graphs) -> numbers w a training = Ok hs ->
  Forall (dag p) graphs -> (forall h, List.In h hs -> fits training prune h) ->
  good_res ok (fun k => fit_all (wk k) a data ig prune None None seed).
Proof.
move=> Es Eg Eh GG HF.
have : good_res ok (fun k => bind (fit_hs (wk k) a training test_graph prune None graphs [::] 0 hs) (fun d =>
    bind (select_h d) (fun x => fit_I (wk k) a training test_I None x))).
  apply: res_bind; first exact: fit_hs_ends.
  move=> d Hd; apply: res_bind.
    apply: res_const; apply: fine_bind; first exact: ins_sort_fine.
    by case=> // _ y [<-].
  move=> x [n Hn]; have Ex := Hn n (leqnn n); have [m Hm] := Hd; have Ed := Hm m (leqnn m).
  have Hx : List.In x d.
    rewrite fit_hs_table in Ed.
    have D0 : List.NoDup (List.map (@en_h F p e) ([::] : seq entry)) by constructor.
    have [D1 _ _ _] := table_spec (@fit_hE F p e (wk m) a training test_graph prune None graphs) D0 Ed.
    by case: (select_h_spec D1) => [[_]|[x' []]]; rewrite Ex // => -[<-].
  have [H1 H2 H3] := entry_inv GG Hd Hx.
  exact: fit_I_ends (HF _ H1) H2 H3.
move=> [r [[n Hn] Nr]]; exists r; split=> //; exists n => k /Hn <-.
rewrite /fit_all; rewrite [split_data _ _ _]Es /=.
have -> : match ig with Some gs => Ok gs | None => fit_ges (wk k) training end = Ok graphs by case: Eg => [->|[-> <-]].
by rewrite /= [numbers _ _ _]Eh.
Qed.
End Main.

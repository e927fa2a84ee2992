(** equivalence_class does not depend on the order of the candidates (C126). *)
From Coq Require Import ZArith Lia List Permutation.
From mathcomp Require Import all_ssreflect all_algebra.
From Verif Require Import Base GraphModel GraphSpec ListModel NumModel NumSpec NumProofs ScoreModel CacheSpec CacheProofs ScoreSpec ScoreProofs HistProofs.
From Verif Require Import MainModel MainSpec PruneProofs PruneIProofs SelectProofs FitProofs LimitProofs NamesProofs ClassNamesProofs CandSpec.
Set Implicit Arguments.
Unset Strict Implicit.
Unset Printing Implicit Defensive.
Import Order.Theory GRing.Theory Num.Theory.
Local Open Scope nat_scope.
Local Open Scope ring_scope.

(** Graphs seen before *)
Definition seenb (A : mat) (S : seq mat) : bool := has (mateqb A) S.
Fixpoint lab (S L : seq mat) : seq (mat * bool) := if L is A :: L' then (A, seenb A S) :: lab (A :: S) L' else [::].
Lemma lab_ext S S' L : (forall A, In A L -> seenb A S = seenb A S') -> lab S L = lab S' L.
Proof.
elim: L S S' => [|A L IH] S S' H //=; rewrite H; last by left.
by congr (_ :: _); apply: IH => B HB; rewrite /seenb /= -/(seenb B S) -/(seenb B S') H //; right.
Qed.
Lemma mateqb_sym p A B : square p A -> square p B -> mateqb A B = mateqb B A.
Proof. by move=> SA SB; apply/(mateqbP SA SB)/(mateqbP SB SA) => ->. Qed.
Lemma lab_perm p S L L' : Permutation L L' -> Forall (square p) L -> Permutation (lab S L) (lab S L').
Proof.
move=> P; elim: P S => [|A L1 L2 _ IH|A B L1|L1 L2 L3 P12 IH1 P23 IH2] S Q //=.
- by constructor; apply: IH; exact: Forall_inv_tail Q.
- have SB := Forall_inv Q; have SA := Forall_inv (Forall_inv_tail Q).
  rewrite /seenb /= -/(seenb A S) -/(seenb B S) (mateqb_sym SB SA).
  rewrite (@lab_ext (B :: A :: S) (A :: B :: S)); last by move=> C _; rewrite /seenb /= orbCA.
  case E : (mateqb A B); last by rewrite /=; apply: perm_swap.
  by have /(mateqbP SA SB) -> := E.
- by apply: Permutation_trans (IH1 S Q) (IH2 S (Permutation_Forall P12 Q)).
Qed.
Lemma seenb_In p A S : square p A -> Forall (square p) S -> seenb A S <-> In A S.
Proof.
move=> SA; elim: S => [|B S IH] Q //; rewrite /seenb /= -/(seenb A S); split.
  by move=> /orP [/(mateqbP SA (Forall_inv Q)) ->|/(IH (Forall_inv_tail Q))]; [left|right].
by move=> [->|/(IH (Forall_inv_tail Q)) ->]; rewrite ?orbT //; apply/orP; left; apply/(mateqbP SA SA).
Qed.

Lemma has_exists_In (X : Type) (a : pred X) (xs : seq X) : reflect (exists2 x, In x xs & a x) (has a xs).
Proof.
elim: xs => [|x xs IH] /=; first by constructor=> -[].
case Ha : (a x) => /=; first by constructor; exists x => //; left.
by case: IH => H; constructor; [case: H => y Hy ay; exists y => //; right|move=> [y [Ey|Hy] ay]; [rewrite Ey ay in Ha|apply: H; exists y]].
Qed.
Lemma has_perm (X : Type) (a : pred X) (xs ys : seq X) : Permutation xs ys -> has a xs = has a ys.
Proof. by elim=> [|x xs1 xs2 _ /= ->|x y xs1 /=|xs1 xs2 xs3 _ -> _ ->] //; rewrite orbCA. Qed.
Lemma Forall2_fun (X Y : Type) (R : X -> Y -> Prop) l m m' : (forall x y y', R x y -> R x y' -> y = y') ->
  Forall2 R l m -> Forall2 R l m' -> m = m'.
Proof.
move=> HR H; elim: H m' => [|x y l1 m1 Rxy _ IH] m' H'; inversion H' as [|x' y' l2 m2 R' H2]; subst => //.
by rewrite (HR _ _ _ Rxy R') (IH _ H2).
Qed.
Lemma Forall2_perm (X Y : Type) (R : X -> Y -> Prop) l l' m m' : (forall x y y', R x y -> R x y' -> y = y') ->
  Permutation l l' -> Forall2 R l m -> Forall2 R l' m' -> Permutation m m'.
Proof.
move=> HR P H H'; case: (Permutation_Forall2 P H) => m2 [P2 H2].
by rewrite (Forall2_fun HR H' H2).
Qed.

Section Object.
Variables (F : realFieldType) (p l e : nat) (cf : conf F p l e).
Hypothesis ND : no_draws cf.
Variable rnds : nat -> nat -> 'M[F]_p * 'M[F]_p.
Local Notation model := (model F p l e).
Local Notation sobj := (sobj F p l e).
Local Notation entry := (mat * seq nat * model * F)%type.
Local Notation copy := (@copy_model F (cf_h cf) p l e).
Local Notation full := (iota 0 p).
Let r0 : nat -> 'M[F]_p * 'M[F]_p := fun=> (0, 0).
Definition D A I := fit cf A I None r0.

(** The cache is a memory of D. *)
Definition inv (xs : seq entry) : Prop := [/\ squares p xs, distinct xs &
  forall x, In x xs -> graph p (eA x) /\ exists2 m, D (eA x) (eI x) = Ok (m, es x) & copy m = Ok (em x)].
Definition same_keys (xs xs' : seq entry) : Prop := forall A I, square p A -> has (key A I) xs = has (key A I) xs'.

Lemma D_set A I J : same_set I J -> D A J = D A I.
Proof. by move=> S; rewrite /D (fit_set cf S A None (rnd := r0)). Qed.
Lemma D_copy A I m s : graph p A -> D A I = Ok (m, s) -> exists2 m', copy m = Ok m' & [/\ mA m' = A, mB m' = mB m, acyclic A & mA m = A].
Proof.
move=> [SA NA] E; have PR : proper (Call A I None r0 : call F p l e) by split.
have [m' [E' [E1 E2 _ _ _] _]] := fit_copy PR E.
have [[HA EA _ _] _] := fit_facts SA NA (I := I) (init := None) (rnd := r0) ltac:(by []) E.
by exists m' => //; split=> //; rewrite -?E1 -?E2.
Qed.

Lemma key_refl A I m s : square p A -> key A I ((A, I, m, s) : entry).
Proof.
move=> SA; have SE : square p (eA ((A, I, m, s) : entry)) by [].
by apply/(keyP _ SA SE); split=> //; split; apply: incl_refl.
Qed.
Lemma inv_rcons xs A I m s mc : inv xs -> graph p A -> has (key A I) xs = false -> D A I = Ok (m, s) -> copy m = Ok mc -> inv (rcons xs (A, I, mc, s)).
Proof.
move=> [SX DX HX] GA K E C; split; [exact: squares_rcons (proj1 GA)|exact: distinct_rcons|].
move=> x; rewrite -cats1 => /in_app_iff [/HX //|[<-|[]]]; split=> //; by exists m.
Qed.

(** One call *)
Lemma sdag_memo (s : sobj) xs A I : s.1 = Some (lists xs) -> inv xs -> graph p A ->
  match D A I with
  | Err x => (sdag cf rnds s A I).2 = Err x
  | Ok (m, sc) => exists2 mc, copy m = Ok mc & exists s',
      [/\ sdag cf rnds s A I = (s', Ok (if has (key A I) xs then mc else m, sc)),
          s'.1 = Some (lists (if has (key A I) xs then xs else rcons xs (A, I, mc, sc))) &
          inv (if has (key A I) xs then xs else rcons xs (A, I, mc, sc))]
  end.
Proof.
move=> E1 IX GA; have [SX DX HX] := IX; have [SA NA] := GA; rewrite /sdag E1 score_dagE.
have EF : fit cf A I None (rnds s.2) = D A I by exact: ND.
have GO : has (key A I) xs = false -> match D A I with
  | Err x => (go cf (Some (lists xs)) A I None (rnds s.2)).2 = Err x
  | Ok (m, sc) => exists2 mc, copy m = Ok mc &
      go cf (Some (lists xs)) A I None (rnds s.2) = (Some (lists (rcons xs (A, I, mc, sc))), Ok (m, sc))
  end.
  move=> K; rewrite /go EF; case ED : (D A I) => [[m sc]|x] //.
  have [mc EC _] := D_copy GA ED; exists mc => //.
  by rewrite (write_spec _ _ _ _ SX DX SA) K EC.
have RD x0 := read_spec I x0 SX DX SA.
case K : (has (key A I) xs); last first.
  have -> : read (lists xs) A I = Ok None.
    case: (xs) K RD => [|x ys] K RD //; by rewrite (RD x) K.
  have := GO K; case ED : (D A I) => [[m sc]|x].
    move=> [mc EC ->]; exists mc => //; eexists; split=> //=; exact: (inv_rcons IX GA K ED EC).
  by case: go => st r /= ->.
have [x0 _] : exists x0 : entry, true by case: (xs) K => [|x ys] //; exists x.
rewrite (RD x0) K; set x := nth x0 xs _.
have Hx : In x xs.
  by have : (seq.find (key A I) xs < size xs)%N by [rewrite -has_find]; rewrite {}/x; elim: (xs) (seq.find _ _) => [|y ys IH] [|k] //= Hk; [left|right; exact: IH].
have [GX [m EM EC]] := HX _ Hx; have Kx : key A I x by exact: nth_find.
move/(keyP _ SA (SX _ Hx)): Kx => [EA SS]; rewrite EA in EM.
rewrite (D_set A SS) EM; exists (em x) => //; by eexists.
Qed.

(** Two objects with the same keys *)
Definition twins (s s' : sobj) : Prop :=
  exists xs xs', [/\ s.1 = Some (lists xs), s'.1 = Some (lists xs'), inv xs, inv xs' & same_keys xs xs'].
Lemma sdag_twins (s s' : sobj) A I : twins s s' -> graph p A ->
  (sdag cf rnds s A I).2 = (sdag cf rnds s' A I).2 /\
  forall r, (sdag cf rnds s A I).2 = Ok r -> twins (sdag cf rnds s A I).1 (sdag cf rnds s' A I).1.
Proof.
move=> [xs [xs' [E1 E1' IX IX' SK]]] GA; have H := sdag_memo I E1 IX GA; have H' := sdag_memo I E1' IX' GA.
move: H H'; case ED : (D A I) => [[m sc]|x]; last by move=> -> ->.
move=> [mc EC [s1 [-> E2 I2]]] [mc' EC' [s1' [-> E2' I2']]].
have EQ : mc' = mc by move: EC'; rewrite EC => -[].
rewrite EQ in E2' I2' *; rewrite /= -(SK A I (proj1 GA)) in E2' I2' *; split=> // _ _.
eexists; eexists; split; [exact: E2|exact: E2'|exact: I2|exact: I2'|].
by case: (has (key A I) xs) => // B J SB; rewrite !has_rcons SK.
Qed.

Lemma prune_I_loop_twins (s s' : sobj) G I js : twins s s' -> graph p G ->
  (prune_I_loop cf rnds s G I js).2 = (prune_I_loop cf rnds s' G I js).2.
Proof.
move=> T GG; elim: js s s' I T => [|j js IH] s s' I T //; rewrite !prune_I_loopS; cbv zeta.
have [E1 T1] := sdag_twins (minus I [:: j]) T GG; move: E1 T1; rewrite /sbind.
case: (sdag cf rnds s G _) => s1 r1; case: (sdag cf rnds s' G _) => s2 r2 /= <-; case: r1 => [x|x] // /(_ _ erefl) T1.
have := IH s1 s2 (minus I [:: j]) T1.
by case: (prune_I_loop _ _ s1 _ _ _) => s3 r3; case: (prune_I_loop _ _ s2 _ _ _) => s4 r4 /= <-; case: r3.
Qed.
Lemma prune_I_twins argsort (s s' : sobj) G : twins s s' -> graph p G ->
  (prune_I cf rnds argsort None s G).2 = (prune_I cf rnds argsort None s' G).2.
Proof.
move=> T GG; rewrite /prune_I; cbv zeta; have [E1 T1] := sdag_twins (iota 0 (length G)) T GG; move: E1 T1; rewrite /sbind.
case: (sdag cf rnds s G _) => s1 r1; case: (sdag cf rnds s' G _) => s2 r2 /= <-; case: r1 => [x|x] // /(_ _ erefl) T1.
have := prune_I_loop_twins (iota 0 (length G)) (argsort (variances x.1)) T1 GG.
by case: (prune_I_loop _ _ s1 _ _ _) => s3 r3; case: (prune_I_loop _ _ s2 _ _ _) => s4 r4 /= <-; case: r3.
Qed.

Lemma sbind_err (St T U : Type) (a : St * res T) (k : St -> T -> St * res U) x : a.2 = Err x -> exists x', (sbind a k).2 = Err x'.
Proof. by case: a => s1 r1 /= ->; exists x. Qed.

(** The graphs fitted when pruning *)
Fixpoint chain (fuel : nat) (dag : mat) (B : 'M[F]_p) : res (seq mat) :=
  if Z.ltb Z0 (msum dag) then
    if fuel is fuel'.+1 then
      bind (weakest_edge B) (fun ij => let dag' := upd dag ij.1 ij.2 Z0 in
      bind (D dag' full) (fun r => bind (chain fuel' dag' (mB r.1)) (fun L => Ok (dag' :: L))))
    else Err OutOfFuel
  else Ok [::].
Definition visit (fuel : nat) (prune : bool) (G : mat) : res (seq mat) :=
  bind (D G full) (fun r => if prune then bind (chain fuel G (mB r.1)) (fun L => Ok (G :: L)) else Ok [:: G]).

Definition model_at (x : mat * bool) (m : model) : Prop :=
  exists m0 s, D x.1 full = Ok (m0, s) /\ if x.2 then copy m0 = Ok m else m = m0.
Lemma model_at_fun x m m' : model_at x m -> model_at x m' -> m = m'.
Proof.
move=> [m0 [s [E H]]] [m0' [s' [E' H']]]; move: E'; rewrite E => -[Em _]; rewrite -Em in H'.
by case: x.2 H H' => [-> [->]|-> ->].
Qed.

(** xs are the results for the graphs in S *)
Definition memo (S : seq mat) (xs : seq entry) : Prop :=
  [/\ inv xs, forall A, graph p A -> has (key A full) xs = seenb A S & forall x, In x xs -> same_set (eI x) full].
Lemma memo_step S xs A m mc sc : memo S xs -> graph p A -> D A full = Ok (m, sc) -> copy m = Ok mc ->
  memo (A :: S) (if seenb A S then xs else rcons xs (A, full, mc, sc)).
Proof.
move=> [IX KX FX] GA E C; have KA := KX _ GA; case H : (seenb A S); split=> //.
- move=> B GB; rewrite KX // /seenb /= -/(seenb B S); case EB : (mateqb B A) => //=.
  by have /(mateqbP (proj1 GB) (proj1 GA)) -> := EB.
- by apply: (inv_rcons IX GA _ E C); rewrite KA H.
- move=> B GB; rewrite has_rcons KX // /seenb /=; congr (_ || _).
  rewrite /key /=; have -> : set_eqb full full = true by apply/set_eqbP; split; apply: incl_refl.
  by rewrite andbT.
- by move=> x; rewrite -cats1 => /in_app_iff [/FX //|[<-|[]]]; split; apply: incl_refl.
Qed.

(** Pruning succeeds exactly if the fits do, and yields the first model for the graphs that are new and copies for the others. *)
Definition outcome (S : seq mat) (c : res (seq mat)) (r : sobj * res (seq model)) : Prop :=
  match c with
  | Ok L => exists s' ms xs', [/\ r = (s', Ok ms), s'.1 = Some (lists xs'), memo (rev L ++ S) xs', Forall2 model_at (lab S L) ms & Forall (graph p) L]
  | Err x => exists x', r.2 = Err x'
  end.

Lemma sdag_outcome S (s : sobj) xs A : s.1 = Some (lists xs) -> memo S xs -> graph p A ->
  match D A full with
  | Err x => (sdag cf rnds s A full).2 = Err x
  | Ok (m0, sc) => exists s' m xs', [/\ sdag cf rnds s A full = (s', Ok (m, sc)), s'.1 = Some (lists xs'), memo (A :: S) xs',
      model_at (A, seenb A S) m & mB m = mB m0]
  end.
Proof.
move=> E1 MX GA; have [IX KX FX] := MX; have := sdag_memo full E1 IX GA; rewrite KX //.
case E : (D A full) => [[m0 sc]|x] // [mc EC [s' [E2 E3 _]]].
eexists; eexists; eexists; split; [exact: E2|exact: E3|exact: memo_step E EC| |].
  by exists m0, sc; split=> //=; case: (seenb A S).
by have [mc' EC' [_ EB _ _]] := D_copy GA E; case: (seenb A S) => //; move: EC'; rewrite EC => -[->].
Qed.

Lemma prune_loop_outcome fuel S (s : sobj) xs dag m : s.1 = Some (lists xs) -> memo S xs -> graph p dag ->
  outcome S (chain fuel dag (mB m)) (prune_loop cf rnds fuel full s dag m).
Proof.
elim: fuel S s xs dag m => [|fuel IH] S s xs dag m E1 MX GD; rewrite ?prune_loop0 ?prune_loopS /=; case: (msum_pos GD) => HE /=;
  try by [exists OutOfFuel | exists s, [::], xs; split=> //; constructor].
have [i [j [-> _]]] := weakest_edge_spec (mB m) (edge_p GD HE); rewrite /=.
set dag' := upd dag i j Z0; have GU : graph p dag' := upd0_graph GD (ltn_ord i) (ltn_ord j).
have := sdag_outcome E1 MX GU; case E : (D dag' full) => [[m0 sc]|x]; last first.
  by move=> H; apply: sbind_err H.
move=> [s1 [m1 [xs1 [-> E2 M2 A2 EB]]]]; rewrite /sbind /= -EB; have := IH _ s1 xs1 dag' m1 E2 M2 GU.
case: (chain fuel dag' (mB m1)) => [L|x]; last by move=> [x' H]; rewrite /sbind H; exists x'.
move=> [s2 [ms [xs2 [-> E3 M3 F3 G3]]]] /=; exists s2, (m1 :: ms), xs2; split=> //; last by constructor.
  by rewrite rev_cons cat_rcons.
by constructor.
Qed.
Lemma prune_graph_outcome fuel prune S (s : sobj) xs G : s.1 = Some (lists xs) -> memo S xs -> graph p G ->
  outcome S (visit fuel prune G) (prune_graph cf rnds fuel prune None full s G).
Proof.
move=> E1 MX GG; rewrite /visit /prune_graph; have := sdag_outcome E1 MX GG; case E : (D G full) => [[m0 sc]|x]; last first.
  by move=> H; apply: sbind_err H.
move=> [s1 [m1 [xs1 [-> E2 M2 A2 EB]]]]; rewrite /sbind /= -EB; case: prune => /=; last first.
  by exists s1, [:: m1], xs1; split=> //; by constructor=> //; constructor.
have := prune_loop_outcome fuel m1 E2 M2 GG; case: (chain fuel G (mB m1)) => [L|x]; last by move=> [x' H]; rewrite /sbind H; exists x'.
move=> [s2 [ms [xs2 [-> E3 M3 F3 G3]]]] /=; exists s2, (m1 :: ms), xs2; split=> //; last by constructor.
  by rewrite rev_cons cat_rcons.
by constructor.
Qed.

Fixpoint visits (fuel : nat) (prune : bool) (Gs : seq mat) : res (seq mat) :=
  if Gs is G :: Gs' then bind (visit fuel prune G) (fun L => bind (visits fuel prune Gs') (fun L' => Ok (L ++ L'))) else Ok [::].
Lemma lab_cat S L L' : lab S (L ++ L') = lab S L ++ lab (rev L ++ S) L'.
Proof. by elim: L S => [|A L IH] S //=; rewrite IH rev_cons cat_rcons. Qed.
Lemma prune_each_outcome fuel prune S (s : sobj) xs Gs : s.1 = Some (lists xs) -> memo S xs -> Forall (graph p) Gs ->
  outcome S (visits fuel prune Gs) (prune_each cf rnds fuel prune None full s Gs).
Proof.
elim: Gs S s xs => [|G Gs IH] S s xs E1 MX GG; first by exists s, [::], xs; split=> //; constructor.
rewrite prune_eachS; have := prune_graph_outcome fuel prune E1 MX (Forall_inv GG); rewrite [visits _ _ _]/=.
case: (visit fuel prune G) => [L|x]; last by move=> [x' H]; rewrite /sbind H; exists x'.
move=> [s1 [ms [xs1 [-> E2 M2 F2 G2]]]]; rewrite /sbind /=; have := IH _ s1 xs1 E2 M2 (Forall_inv_tail GG).
case: (visits fuel prune Gs) => [L'|x]; last by move=> [x' H]; rewrite /sbind H; exists x'.
move=> [s2 [ms' [xs2 [-> E3 M3 F3 G3]]]] /=; exists s2, (ms ++ ms'), xs2; split=> //.
- by rewrite rev_cat -catA.
- by rewrite lab_cat; apply: Forall2_app.
- by apply/Forall_app.
Qed.

Lemma visits_perm fuel prune Gs Gs' L : Permutation Gs Gs' -> visits fuel prune Gs = Ok L ->
  exists2 L', visits fuel prune Gs' = Ok L' & Permutation L L'.
Proof.
move=> P; elim: P L => [|G G1 G2 _ IH|G H G1|G1 G2 G3 _ IH1 _ IH2] L.
- by move=> E; exists L.
- rewrite /=; case: (visit fuel prune G) => //= L1; case E : (visits fuel prune G1) => [L2|] //= [<-].
  by have [L3 -> P3] := IH _ E; exists (L1 ++ L3) => //; apply: Permutation_app_head.
- rewrite /=; case: (visit fuel prune H) => //= L1; case: (visit fuel prune G) => //= L2; case: (visits fuel prune G1) => //= L3 [<-].
  by exists (L2 ++ (L1 ++ L3)) => //; rewrite !catA; apply: Permutation_app_tail; exact: Permutation_app_comm.
- by move=> /IH1 [L2 E2 P2]; have [L3 E3 P3] := IH2 _ E2; exists L3 => //; exact: Permutation_trans P2 P3.
Qed.

Lemma memo0 : memo [::] [::]. Proof. by split=> //; split=> // x []. Qed.

Lemma memo_keys S S' xs xs' A I : memo S xs -> memo S' xs' -> (forall A, graph p A -> seenb A S = seenb A S') -> square p A ->
  has (key A I) xs -> has (key A I) xs'.
Proof.
move=> [[SX _ HX] KX FX] [[SX' _ HX'] KX' FX'] ES SA /has_exists_In [x Hx]; move/(keyP _ SA (SX _ Hx)) => [EA SI].
have GA : graph p A by rewrite -EA; have [] := HX _ Hx.
have FI : same_set full I := same_set_trans (same_set_sym (FX _ Hx)) SI.
have : has (key A full) xs by apply/has_exists_In; exists x => //; apply/(keyP _ SA (SX _ Hx)); split=> //; exact: FX.
rewrite KX // ES // -KX' // => /has_exists_In [y Hy]; move/(keyP _ SA (SX' _ Hy)) => [EA' SI'].
by apply/has_exists_In; exists y => //; apply/(keyP _ SA (SX' _ Hy)); split=> //; exact: same_set_trans SI' FI.
Qed.

Lemma chain_sub fuel dag B L : graph p dag -> chain fuel dag B = Ok L -> Forall (fun A => graph p A /\ subgraph A dag) L.
Proof.
elim: fuel dag B L => [|fuel IH] dag B L GD; rewrite [chain _ _ _]/=; case: (msum_pos GD) => HE //; first by move=> [<-].
2: by move=> [<-].
have [i [j [-> _]]] := weakest_edge_spec B (edge_p GD HE); rewrite [bind (Ok _) _]/=.
set dag' := upd dag i j Z0; have GU : graph p dag' := upd0_graph GD (ltn_ord i) (ltn_ord j).
have SU : subgraph dag' dag := upd0_sub GD (ltn_ord i) (ltn_ord j).
case: (D dag' full) => [[m0 sc]|x] //=; case E : chain => [L1|x] //= [<-]; constructor=> //.
by apply: (Forall_impl _ _ (IH _ _ _ GU E)) => A [GA SA]; split=> //; exact: subgraph_trans SA SU.
Qed.
Lemma visits_examined fuel prune Gs Hs L : Forall (graph p) Hs -> incl Hs Gs -> visits fuel prune Hs = Ok L -> Forall (examined p prune Gs) L.
Proof.
elim: Hs L => [|G Hs IH] L GG IG; first by move=> [<-].
have GA := Forall_inv GG; have IN : In G Gs by apply: IG; left.
have EG : examined p prune Gs G by split=> //; exists G => //; case: (prune) => // i j.
rewrite [visits _ _ _]/= /visit; case: (D G full) => [r|x] //; rewrite [bind (Ok r) _]/=.
case EL : (if prune then _ else _) => [L1|x] //=; case E : visits => [L2|x] //= [<-]; apply/Forall_app; split; last first.
  by apply: (IH _ (Forall_inv_tail GG) _ E) => x Hx; apply: IG; right.
move: EL EG; case: (prune) => [|[<-] EG]; last by constructor.
case EC : chain => [L3|x] //= [<-] EG; constructor=> //.
by apply: (Forall_impl _ _ (chain_sub GA EC)) => A [GA' SA]; split=> //; exists G.
Qed.

Lemma prune_graphs_perm fuel prune Gs Gs' s ms : Permutation Gs Gs' -> Forall (graph p) Gs ->
  prune_graphs cf rnds fuel prune None (new_sobj F p l e) Gs = (s, Ok ms) ->
  exists s' ms', [/\ prune_graphs cf rnds fuel prune None (new_sobj F p l e) Gs' = (s', Ok ms'), Permutation ms ms', twins s s' &
    Forall (fun m => model_for cf (mA m) m /\ examined p prune Gs (mA m)) ms].
Proof.
move=> P GG; have GG' := Permutation_Forall P GG.
have E0 H Hs : Forall (graph p) (H :: Hs) -> iota 0 (length H) = full by move=> Q; rewrite (square_length (proj1 (Forall_inv Q))).
case: Gs P GG => [|G Gs] P GG //; case: Gs' P GG' => [|G' Gs'] P GG'; first by move: (Permutation_sym P) => /Permutation_nil.
rewrite /prune_graphs (E0 _ _ GG) (E0 _ _ GG').
have := prune_each_outcome fuel prune (s := new_sobj F p l e) (xs := [::]) erefl memo0 GG.
case EL : (visits fuel prune (G :: Gs)) => [L|x]; last by move=> [x' H] EE; rewrite EE in H.
move=> [s1 [ms1 [xs1 [-> E1 M1 F1 G1]]]] [<- <-].
have [L' EL' PL] := visits_perm P EL.
have := prune_each_outcome fuel prune (s := new_sobj F p l e) (xs := [::]) erefl memo0 GG'; rewrite EL' /=.
move=> [s2 [ms2 [xs2 [-> E2 M2 F2 G2]]]]; exists s2, ms2; split=> //; last first.
- have EX := visits_examined GG (incl_refl _) EL; move: F1 G1 EX; move: [::] => S0 F1 G1 EX.
  elim: L S0 ms1 F1 G1 EX {EL PL M1} => [|A L IH] S0 ms1 F1 G1 EX; inversion F1 as [|x' y' l2 m2 R' H2]; subst; constructor.
    have GA := Forall_inv G1; have XA := Forall_inv EX; case: R' => m0 [sc [ED H]]; rewrite /= in ED H.
    have [mc EC [EA _ _ EA0]] := D_copy GA ED; have EM : mA y' = A.
      by case: (seenb A S0) H => [|->] //; rewrite EC => -[<-].
    rewrite EM; split=> //; exists r0, m0, sc; split=> //; by case: (seenb A S0) H; [right|left].
  exact: (IH _ _ H2 (Forall_inv_tail G1) (Forall_inv_tail EX)).
- exists xs1, xs2; have [I1 K1 X1] := M1; have [I2 K2 X2] := M2; split=> // A I SA.
have SE B : graph p B -> seenb B (rev L ++ [::]) = seenb B (rev L' ++ [::]) by move=> _; rewrite /seenb !cats0 !has_rev; exact: has_perm.
by apply/idP/idP; [apply: (memo_keys M1 M2)|apply: (memo_keys M2 M1)] => // B GB; rewrite SE.
- by apply: (Forall2_perm model_at_fun _ F1 F2); apply: (lab_perm (p := p) [::] PL); apply: (Forall_impl _ _ G1) => A [].
Qed.
End Object.

(** Lists of results *)
Lemma best_scoring_perm (F : realFieldType) (T : Type) (xs ys : seq (F * T)) b : Permutation xs ys ->
  (forall x y, In x xs -> In y xs -> x.1 = y.1 -> x = y) -> best_scoring xs = Ok b -> best_scoring ys = Ok b.
Proof.
move=> P U E; case: (best_scoring_spec xs) => [[_ E0]|[b0 [E0 [us [vs [EX L1 L2]]]]]]; first by rewrite E0 in E.
move: E; rewrite E0 => -[Eb]; rewrite Eb in EX L1 L2.
have LE x : In x xs -> b.1 <= x.1.
  by rewrite EX => /in_app_iff [/L1 /ltW|[<-|/L2]].
have IB : In b xs by rewrite EX; apply/in_app_iff; right; left.
case: (best_scoring_spec ys) => [[EY _]|[c [-> [us' [vs' [EY L1' L2']]]]]].
  by rewrite EY in P; have := Permutation_nil (Permutation_sym P); rewrite EX; case: (us).
have IC : In c xs by apply: (Permutation_in _ (Permutation_sym P)); rewrite EY; apply/in_app_iff; right; left.
have LE' : c.1 <= b.1.
  have := Permutation_in _ P IB; rewrite EY => /in_app_iff [/L1' /ltW|[<-|/L2']] //.
by congr Ok; apply: U => //; apply/eqP; rewrite eq_le LE' LE.
Qed.

Lemma test_scores_perm (F : realFieldType) (p e l : nat) (w : world F p e) (T : Type) fold (ms ms' : seq (model F p l e * T)) xs :
  Permutation ms ms' -> test_scores w fold ms = Ok xs -> exists2 xs', test_scores w fold ms' = Ok xs' & Permutation xs xs'.
Proof.
move=> P; elim: P xs => [|x l1 l2 _ IH|x y l1|l1 l2 l3 _ IH1 _ IH2] xs.
- by move=> E; exists xs.
- rewrite /=; case: score => //= v; case E : test_scores => [ys|] //= [<-].
  by have [zs -> PZ] := IH _ E; exists ((v, x) :: zs) => //; constructor.
- rewrite /=; case: score => //= v; case: score => //= u; case: test_scores => //= ys [<-].
  by exists ((u, x) :: (v, y) :: ys) => //; apply: perm_swap.
- by move=> /IH1 [ys E PY]; have [zs E' PZ] := IH2 _ E; exists zs => //; exact: Permutation_trans PY PZ.
Qed.

Section Class.
Variables (F : realFieldType) (p e : nat) (w : world F p e) (a : args F).
Local Notation sample := (seq 'rV[F]_p).
Variables (training test_g test_I : seq sample) (prune : bool) (Gs Gs' : seq mat) (hs : seq nat).
Hypothesis P : Permutation Gs Gs'.
Hypothesis GG : Forall (graph p) Gs.
Hypothesis ND : forall h, In h hs -> no_draws (train_conf w a training h).
Hypothesis DS : forall h, In h hs -> different_scores w a training test_g prune Gs h.

Inductive erelp : entry F p e -> entry F p e -> Prop :=
| ERelp n h v G xs xs' (s s' : sobj F p h e) : In h hs -> graph p G ->
    twins (train_conf w a training h) s s' -> erelp (Entry n v G xs s) (Entry n v G xs' s').
Lemma erelp_h x x' : erelp x x' -> en_h x' = en_h x. Proof. by case. Qed.
Lemma erelp_key x x' : erelp x x' -> (en_score x', en_h x') = (en_score x, en_h x). Proof. by case. Qed.

Definition orel (A B : Type) (R : A -> B -> Prop) (r : res A) (r' : res B) : Prop := forall x, r = Ok x -> exists2 x', r' = Ok x' & R x x'.
Lemma obind (A B C E : Type) (R : A -> B -> Prop) (Q : C -> E -> Prop) r r' k k' : orel R r r' -> (forall x x', R x x' -> orel Q (k x) (k' x')) ->
  orel Q (bind r k) (bind r' k').
Proof. by move=> H1 H2 y; case: r H1 => //= x H1 EE; have [x' -> Hx] := H1 _ erefl; exact: H2 Hx _ EE. Qed.

Lemma fit_h_perm n h : In h hs -> orel erelp (fit_h w a training test_g prune None Gs n h) (fit_h w a training test_g prune None Gs' n h).
Proof.
move=> Hh x; rewrite /fit_h; case: ifP => // _; case EP : prune_graphs => [s [ms|]] //=.
have [s' [ms' [EP' PM T FM]]] := prune_graphs_perm (ND Hh) P GG EP.
rewrite EP' /=; case ET : test_scores => [xs|] //=.
have [xs' -> PX] := test_scores_perm (Permutation_map (fun m => (m, mA m)) PM) ET.
case EB : best_scoring => [[v G]|] //= [<-].
have IX y : In y xs -> exists m, [/\ In m ms, y.2 = (m, mA m) & scored w test_g m y.1].
  have FT := test_scores_spec ET; move=> Hy.
  elim: ms xs FT Hy {EP PM FM ET PX EB} => [|m ms IH] xs FT Hy; inversion FT as [|x1 y1 l1 m1 [R1 R2] H2]; subst; first by case: Hy.
  by case: Hy => [Hy|/(IH _ H2) [m' [H1 H3 H4]]]; [exists m; rewrite -Hy; split=> //; left|exists m'; split=> //; right].
have EB' : best_scoring [seq (y.1, y.2.2) | y <- xs'] = Ok (v, G).
  apply: best_scoring_perm EB; first exact: Permutation_map.
  move=> u1 u2 /in_map_iff [y1 [<- /IX [m1 [I1 E1 S1]]]] /in_map_iff [y2 [<- /IX [m2 [I2 E2 S2]]]] /= EQ.
  rewrite EQ E1 E2 /=; congr pair.
  have [M1 X1] := proj1 (Forall_forall _ _) FM _ I1; have [M2 X2] := proj1 (Forall_forall _ _) FM _ I2.
  by apply: (DS Hh X1 X2 M1 M2 _ S2); rewrite -EQ.
rewrite EB' /=; eexists; first by []; constructor=> //.
case: (best_scoring_spec [seq (y.1, y.2.2) | y <- xs]) => [[_ E0]|[b0 [E0 [us [vs [EX _ _]]]]]]; first by rewrite E0 in EB.
have : In (v, G) [seq (y.1, y.2.2) | y <- xs].
  by rewrite EX; apply/in_app_iff; right; left; move: EB; rewrite E0 => -[].
move=> /in_map_iff [y [[_ <-] /IX [m [Im -> _]]]] /=.
by have [_ []] := proj1 (Forall_forall _ _) FM _ Im.
Qed.

Lemma dict_set_perm d d' x x' : Forall2 erelp d d' -> erelp x x' -> Forall2 erelp (dict_set d x) (dict_set d' x').
Proof.
move=> HD HX; rewrite /dict_set (erelp_h HX).
have -> : has (fun y => en_h y == en_h x) d' = has (fun y => en_h y == en_h x) d.
  by elim: HD => [|y y' ys ys' HY _ IH] //=; rewrite (erelp_h HY) IH.
case: ifP => _; last by rewrite -!cats1; apply: Forall2_app => //; constructor.
by elim: HD => [|y y' ys ys' HY _ IH] //=; constructor=> //; rewrite (erelp_h HY); case: ifP.
Qed.
Lemma fit_hs_perm d d' n hs2 : Forall2 erelp d d' -> incl hs2 hs ->
  orel (Forall2 erelp) (fit_hs w a training test_g prune None Gs d n hs2) (fit_hs w a training test_g prune None Gs' d' n hs2).
Proof.
elim: hs2 d d' n => [|h hs2 IH] d d' n HD HI /=; first by move=> x [<-]; exists d'.
apply: obind; first by apply: fit_h_perm; apply: HI; left.
by move=> x x' HX; apply: IH; [exact: dict_set_perm|move=> y Hy; apply: HI; right].
Qed.

Lemma ins_sort1_perm x x' ys ys' : erelp x x' -> Forall2 erelp ys ys' ->
  orel (Forall2 erelp) (ins_sort1 (fun x => (en_score x, en_h x)) x ys) (ins_sort1 (fun x => (en_score x, en_h x)) x' ys').
Proof.
move=> HX; elim=> [|y y' zs zs' HY HZ IH] /=; first by move=> us [<-]; eexists; first by []; constructor.
have [E1 E2] := erelp_key HX; have [E3 E4] := erelp_key HY; rewrite /tuple_lt E1 E2 E3 E4.
apply: (obind (R := fun a b => b = a)); first by move=> b ->; exists b.
move=> b b' ->; case: b; last by move=> us [<-]; eexists; first by []; constructor=> //; constructor.
by apply: obind; [exact: IH|move=> us us' HU vs [<-]; eexists; first by []; constructor].
Qed.
Lemma select_h_perm d d' : Forall2 erelp d d' -> orel erelp (select_h d) (select_h d').
Proof.
move=> HD; apply: (obind (R := Forall2 erelp)); last by move=> xs xs' [|x x' ys ys' HX _] // u [<-]; exists x'.
elim: HD => [|x x' ys ys' HX _ IH] /=; first by move=> us [<-]; eexists; first by []; constructor.
by apply: obind; [exact: IH|move=> zs zs'; exact: ins_sort1_perm].
Qed.

Lemma fit_I_perm x x' : erelp x x' -> fit_I w a training test_I None x = fit_I w a training test_I None x'.
Proof.
case=> n h v G xs xs' s s' Hh HG T; rewrite /fit_I /=.
have := prune_I_twins (ND Hh) (w_rnds w n) (w_argsort w) T HG.
by case: prune_I => s1 r; case: prune_I => s1' r' /= ->.
Qed.
End Class.

Lemma class_perm1 (F : realFieldType) (p e : nat) (w : world F p e) (a : args F) Gs Gs' data prune seed training test_graph test_I hs r :
  Permutation Gs Gs' -> Forall (graph p) Gs ->
  split_data (w_shuffle w 42) [seq data k | k <- enum 'I_e] (a_folds a) = Ok [:: training; test_graph; test_I] ->
  numbers w a training = Ok hs ->
  (forall h, In h hs -> no_draws (train_conf w a training h) /\ different_scores w a training test_graph prune Gs h) ->
  equivalence_class w a Gs data prune seed = Ok r -> equivalence_class w a Gs' data prune seed = Ok r.
Proof.
move=> P GG ES EH H; have ND h Hh := proj1 (H h Hh); have DS h Hh := proj2 (H h Hh).
rewrite /equivalence_class /fit_all ES /= EH /=.
have := @fit_hs_perm F p e w a training test_graph prune Gs Gs' hs P GG ND DS [::] [::] 0 hs (Forall2_nil _) (incl_refl _).
case: fit_hs => [d|x] H1 //=; have [d' -> HD] := H1 _ erefl.
rewrite /=; have := select_h_perm HD; case: select_h => [x|x] H2 //=; have [x' -> HX] := H2 _ erefl.
by rewrite /= (fit_I_perm test_I ND HX).
Qed.
Lemma examined_perm p prune Gs Gs' A : Permutation Gs Gs' -> examined p prune Gs' A -> examined p prune Gs A.
Proof. by move=> P [GA [G HG HA]]; split=> //; exists G => //; exact: Permutation_in (Permutation_sym P) HG. Qed.
Lemma class_perm (F : realFieldType) (p e : nat) (w : world F p e) (a : args F) Gs Gs' data prune seed training test_graph test_I hs r :
  Permutation Gs Gs' -> Forall (graph p) Gs ->
  split_data (w_shuffle w 42) [seq data k | k <- enum 'I_e] (a_folds a) = Ok [:: training; test_graph; test_I] ->
  numbers w a training = Ok hs ->
  (forall h, In h hs -> no_draws (train_conf w a training h) /\ different_scores w a training test_graph prune Gs h) ->
  equivalence_class w a Gs data prune seed = Ok r <-> equivalence_class w a Gs' data prune seed = Ok r.
Proof.
move=> P GG ES EH H; split; first exact: (class_perm1 P GG ES EH H).
apply: (class_perm1 (Permutation_sym P) (Permutation_Forall P GG) ES EH) => h Hh; have [ND DS] := H h Hh; split=> // A A' m m' x XA XA'.
exact: DS (examined_perm P XA) (examined_perm P XA').
Qed.

(** The solver 'cvx' makes no draws. *)
Lemma cvx_no_draws (F : realFieldType) (p l e : nat) (cf : conf F p l e) : cf_solver cf = Cvx -> no_draws cf.
Proof.
move=> EC A I rnd rnd' _; rewrite /fit; case: is_dag => //= d; case: ifP => // _.
case: initial_model => //= m; case: mscore => //= s; congr bind.
suff H k i d0 n pm ps cur : alt_loop cf k I rnd i d0 n pm ps cur = alt_loop cf k I rnd' i d0 n pm ps cur by exact: H.
elim: k i d0 n pm ps cur => [|k IH] i d0 n pm ps cur //=; case: ifP => // _.
have -> : round cf I (rnd i) pm = round cf I (rnd' i) pm by rewrite /round; case: copy_model => //= c0; rewrite /solve_B EC.
by case: round => //= -[[cm cs] dd]; exact: IH.
Qed.

(** Histories of score_dag calls. *)
From Coq Require Import ZArith Lia List.
From mathcomp Require Import all_ssreflect all_algebra.
From Verif Require Import Base GraphModel GraphSpec TopoProofs NumModel NumSpec NumProofs ScoreModel CacheSpec CacheProofs.
From Verif Require Import ScoreSpec GDProofs ScoreProofs.
Set Implicit Arguments.
Unset Strict Implicit.
Unset Printing Implicit Defensive.
Import Order.Theory GRing.Theory Num.Theory.
Local Open Scope ring_scope.

Section Hist.
Variables (F : realFieldType) (p l e : nat) (cf : conf F p l e).
Local Notation h := (cf_h cf).
Local Notation model := (model F p l e).
Local Notation call := (call F p l e).
Local Notation entry := (mat * seq nat * model * F)%type.
Local Notation copy := (@copy_model F h p l e).
Variable P : mat -> seq nat -> model -> Prop.
Hypothesis P_set : forall A I J m, same_set I J -> P A I m -> P A J m.
Hypothesis P_params : forall A I m m', same_params m m' -> P A I m -> P A I m'.

(** The entries of a cache: distinct keys, DAGs, models with property P. *)
Definition wf (xs : seq entry) : Prop :=
  [/\ squares p xs, distinct xs & forall x, In x xs -> acyclic (eA x) /\ P (eA x) (eI x) (em x)].

Lemma In_nth_find A I (xs : seq entry) x0 : has (key A I) xs -> In (nth x0 xs (seq.find (key A I) xs)) xs.
Proof.
elim: xs => [|x xs IH] //=; case: ifP => K /= H; first by left.
by right; apply: IH.
Qed.

Lemma fit_notdag A I init rnd : square p A -> nonneg A -> ~ acyclic A -> fit cf A I init rnd = Err ValueError.
Proof.
move=> SA NA CA; rewrite /fit; case: (is_dag_spec h p A SA NA) => d [-> Hd] /=.
by case: d Hd => // Hd; case: CA; apply/Hd.
Qed.

Lemma fit_copy c m s : proper c -> fit cf (cl_A c) (cl_I c) (cl_init c) (cl_rnd c) = Ok (m, s) ->
  exists m', [/\ copy m = Ok m', same_params m m' & mI_B m' = 1%:M - (mB m)^T].
Proof.
case=> SA NA SI E; case: (fit_facts SA NA SI E) => [[HA EA SB _] _].
have E' : copy m = Ok (MkModel (cl_A c) (mB m) (mgamma m) (momegas m) (mpsis m) (1%:M - (mB m)^T)).
  rewrite /copy_model EA; by case: (new_model_spec h (mB m) (mgamma m) (momegas m) (mpsis m) SA NA) => [[_ [_ ->]]|[[]]].
by eexists; split; first exact: E'.
Qed.

(** One call on a well-formed cache *)
Lemma call_some xs c : proper c -> wf xs ->
  (forall m s, fit cf (cl_A c) (cl_I c) (cl_init c) (cl_rnd c) = Ok (m, s) -> P (cl_A c) (cl_I c) m) ->
  exists ys r, [/\ do_call cf (Some (lists xs)) c = (Some (lists (xs ++ ys)), r), wf (xs ++ ys),
    (forall x, r = Err x -> ys = [::]) &
    forall m s, r = Ok (m, s) -> [/\ acyclic (cl_A c), P (cl_A c) (cl_I c) m &
      forall x0, has (key (cl_A c) (cl_I c)) (xs ++ ys) /\
        let x := nth x0 (xs ++ ys) (seq.find (key (cl_A c) (cl_I c)) (xs ++ ys)) in
        same_params m (em x) /\ es x = s]].
Proof.
move=> PR [SX DX HX] HP; have [SA NA SI] := PR.
set A := cl_A c in HP SA NA *; set I := cl_I c in HP *.
have GO : forall res, (match fit cf A I (cl_init c) (cl_rnd c) with
    | Err x => (Some (lists xs), Err x)
    | Ok (m, s) => let '(c', w) := write copy (lists xs) A I m s in (Some c', bind w (fun _ => Ok (m, s)))
    end) = res -> exists ys r, [/\ res = (Some (lists (xs ++ ys)), r), wf (xs ++ ys),
    (forall x, r = Err x -> ys = [::]) &
    forall m s, r = Ok (m, s) -> [/\ acyclic A, P A I m & forall x0, has (key A I) (xs ++ ys) /\
        let x := nth x0 (xs ++ ys) (seq.find (key A I) (xs ++ ys)) in same_params m (em x) /\ es x = s]].
  move=> res <-; case E: fit => [[m s]|ex]; last by exists [::], (Err ex); rewrite cats0.
  have [[HA EA SB _] _] := fit_facts SA NA SI E.
  have [m' [EC SP _]] := fit_copy PR E.
  rewrite (write_spec _ _ _ _ SX DX SA); case: (boolP (has (key A I) xs)) => K.
    by exists [::], (Err ValueError); rewrite cats0.
  rewrite EC /=; exists [:: (A, I, m', s)], (Ok (m, s)); rewrite cats1.
  have W : wf (rcons xs (A, I, m', s)).
    split; [exact: squares_rcons | by apply: distinct_rcons => //; apply/negbTE |].
    move=> x; rewrite -cats1 => H; case: (in_app_or _ _ _ H) => [/HX //|[<-|[]]].
    by split=> //; apply: P_params SP _; apply: HP E.
  split=> // m0 s0 [<- <-]; split=> //; first exact: HP E.
  have KS : key A I (A, I, m', s).
    have SE : square p (eA (A, I, m', s)) by [].
    by apply/(keyP _ SA SE); split=> //; split; apply: incl_refl.
  move=> x0; split; first by rewrite has_rcons KS.
  rewrite -cats1 find_cat (negbTE K) nth_cat ltnNge leq_addr /= addKn /= KS /=; by split.
rewrite /do_call /score_dag -/A -/I; case EI: (cl_init c) => [mi|]; first by apply: (GO _); rewrite EI.
have [[x0 _]|NO] : (exists x0 : entry, true) \/ xs = [::] by case: (xs) => [|x xs']; [right|left; exists x].
  rewrite (read_spec _ x0 SX DX SA); case: (boolP (has (key A I) xs)) => K; last by apply: (GO _); rewrite EI.
  set x := nth x0 xs (seq.find (key A I) xs).
  exists [::], (Ok (em x, es x)); rewrite cats0; split=> // m s [<- <-].
  have Hx := In_nth_find x0 K; have [HA Px] := HX _ Hx; have Kx := nth_find x0 K.
  move/(keyP _ SA (SX _ Hx)): (Kx) => [EA SS]; rewrite EA -/x in HA Px; split=> //.
    exact: P_set SS Px.
  move=> y0; split=> //=; rewrite (set_nth_default x0); last by rewrite -has_find.
  by split=> //; split.
have -> : read (lists xs) A I = Ok None by rewrite NO.
by apply: (GO _); rewrite EI.
Qed.

Lemma call_none c : proper c ->
  (forall m s, fit cf (cl_A c) (cl_I c) (cl_init c) (cl_rnd c) = Ok (m, s) -> P (cl_A c) (cl_I c) m) ->
  (do_call cf None c).1 = None /\
  forall m s, (do_call cf None c).2 = Ok (m, s) -> acyclic (cl_A c) /\ P (cl_A c) (cl_I c) m.
Proof.
move=> PR HP; have [SA NA SI] := PR; rewrite /do_call /score_dag.
have -> : forall (X : option (cache model F) * res (model * F)), match cl_init c, (None : option (cache model F)) with
  | None, Some c0 => match read c0 (cl_A c) (cl_I c) with Err x => (None, Err x) | Ok (Some r) => (None, Ok r) | Ok None => X end
  | _, _ => X end = X by move=> X; case: (cl_init c).
case E: fit => [[m s]|ex] //=; split=> // m0 s0 [<- _].
by have [[HA _ _ _] _] := fit_facts SA NA SI E; split=> //; apply: HP E.
Qed.

(** Histories *)
Definition good_call (c : call) : Prop :=
  proper c /\ forall m s, fit cf (cl_A c) (cl_I c) (cl_init c) (cl_rnd c) = Ok (m, s) -> P (cl_A c) (cl_I c) m.

Lemma run_some cs xs : Forall good_call cs -> wf xs ->
  exists ys, run cf (Some (lists xs)) cs = Some (lists (xs ++ ys)) /\ wf (xs ++ ys).
Proof.
elim: cs xs => [|c cs IH] xs G W /=; first by exists [::]; rewrite cats0.
have [PR HP] := Forall_inv G; case: (call_some PR W HP) => ys [r [-> W' _ _]] /=.
case: (IH _ (Forall_inv_tail G) W') => zs [-> W'']; exists (ys ++ zs); by rewrite catA.
Qed.

Lemma run_none cs : Forall good_call cs -> run cf None cs = None.
Proof.
elim: cs => [|c cs IH] G //=; have [PR HP] := Forall_inv G.
by rewrite (proj1 (call_none PR HP)); apply: IH (Forall_inv_tail G).
Qed.

Lemma wf0 : wf [::]. Proof. by split=> // x []. Qed.

Local Notation fresh := (@fresh F p l e).

Lemma run_wf caching cs : Forall good_call cs ->
  run cf (fresh caching) cs = None /\ caching = false \/
  exists xs, run cf (fresh caching) cs = Some (lists xs) /\ wf xs /\ caching = true.
Proof.
case: caching => G /=; last by left; split=> //; apply: run_none.
right; case: (run_some G wf0) => xs [E W]; exists xs; split=> //; exact: E.
Qed.
End Hist.

Section Props.
Variables (F : realFieldType) (p l e : nat) (cf : conf F p l e).
Local Notation model := (model F p l e).
Local Notation call := (call F p l e).
Local Notation fresh := (@fresh F p l e).

Lemma good_proper (cs : seq call) : Forall (@proper F p l e) cs -> Forall (good_call cf (fun _ _ _ => True)) cs.
Proof. by apply: Forall_impl => c H; split. Qed.

Let T1 : forall (A : mat) I J (m : model), same_set I J -> True -> True. Proof. by []. Qed.
Let T2 : forall (A : mat) (I : seq nat) (m m' : model), same_params m m' -> True -> True. Proof. by []. Qed.

(** C41 *)
Lemma notdag_always caching cs c : Forall (@proper F p l e) cs -> proper c -> ~ acyclic (cl_A c) ->
  do_call cf (run cf (fresh caching) cs) c = (run cf (fresh caching) cs, Err ValueError).
Proof.
move=> G PR CA; have [SA NA SI] := PR.
have EF := fit_notdag cf (cl_I c) (cl_init c) (cl_rnd c) SA NA CA.
case: (@run_wf F p l e cf (fun _ _ _ => True) T1 T2 caching cs (good_proper G)) => [[-> _]|[xs [-> [[SX DX HX] _]]]].
  by rewrite /do_call /score_dag EF; case: (cl_init c).
rewrite /do_call /score_dag EF; case: (cl_init c) => [mi|] //.
have -> // : read (lists xs) (cl_A c) (cl_I c) = Ok None.
have [[x0 _]|NO] : (exists x0 : mat * seq nat * model * F, true) \/ xs = [::].
- by case: (xs) => [|x xs']; [right|left; exists x].
- rewrite (read_spec _ x0 SX DX SA); case: ifP => // K; case: CA.
  have Hx := In_nth_find x0 K; have := nth_find x0 K; move/(keyP _ SA (SX _ Hx)) => [<- _].
  by case: (HX _ Hx).
- by rewrite NO.
Qed.

Lemma failed_unchanged caching cs c x : Forall (@proper F p l e) cs -> proper c ->
  (do_call cf (run cf (fresh caching) cs) c).2 = Err x ->
  (do_call cf (run cf (fresh caching) cs) c).1 = run cf (fresh caching) cs.
Proof.
move=> G PR; case: (@run_wf F p l e cf (fun _ _ _ => True) T1 T2 caching cs (good_proper G)) => [[-> _]|[xs [-> [W _]]]].
  by move=> _; case: (@call_none F p l e cf (fun _ _ _ => True) c PR (fun _ _ _ => Logic.I)).
case: (@call_some F p l e cf (fun _ _ _ => True) T1 T2 _ c PR W (fun _ _ _ => Logic.I)) => ys [r [-> _ HE _]] /= E.
by rewrite (HE _ E) cats0.
Qed.

(** C42 *)
Lemma repeatable cs c cs' c' m s : Forall (@proper F p l e) cs -> Forall (@proper F p l e) cs' -> proper c ->
  cl_A c' = cl_A c -> same_set (cl_I c') (cl_I c) -> cl_init c' = None ->
  let st := run cf (fresh true) cs in
  (do_call cf st c).2 = Ok (m, s) ->
  let st' := run cf (do_call cf st c).1 cs' in
  exists m', do_call cf st' c' = (st', Ok (m', s)) /\ same_params m m'.
Proof.
move=> G G' PR EA SS EI st; have [SA NA SI] := PR; rewrite {}/st.
case: (@run_wf F p l e cf (fun _ _ _ => True) T1 T2 true cs (good_proper G)) => [[_ //]|[xs [-> [W _]]]].
case: (@call_some F p l e cf (fun _ _ _ => True) T1 T2 _ c PR W (fun _ _ _ => Logic.I)) => ys [r [-> W' _ HO]] /= E.
case: (HO _ _ E) => _ _ HX; case: (@run_some F p l e cf (fun _ _ _ => True) T1 T2 cs' _ (good_proper G') W') => zs [-> [SX DX _]].
have [x0 _] : exists x0 : mat * seq nat * model * F, true by exists (cl_A c, [::], m, s).
case: (HX x0) => K /= [SP ES].
have EK : @key model F (cl_A c) (cl_I c') =1 key (cl_A c) (cl_I c).
  move=> x; rewrite /key; congr (_ && _); apply/set_eqbP/set_eqbP => H.
    exact: same_set_trans H SS.
  exact: same_set_trans H (same_set_sym SS).
rewrite /do_call /score_dag EI EA (read_spec _ x0 SX DX SA) (eq_has EK) has_cat K (eq_find EK) find_cat K nth_cat.
rewrite -has_find K; by eexists; split; [rewrite -ES|].
Qed.

(** Results and constraints *)
Lemma fitted caching cs c m s : Forall (@proper F p l e) cs -> proper c ->
  (do_call cf (run cf (fresh caching) cs) c).2 = Ok (m, s) ->
  [/\ acyclic (cl_A c), mA m = cl_A c, supported (cl_A c) (mB m) & in_range (cf_psi_max cf) m].
Proof.
move=> G PR.
set P := fun (A : mat) (I : seq nat) (m : model) => [/\ mA m = A, supported A (mB m) & in_range (cf_psi_max cf) m].
have P1 A I J (m0 : model) : same_set I J -> P A I m0 -> P A J m0 by [].
have P2 A I (m0 m1 : model) : same_params m0 m1 -> P A I m0 -> P A I m1.
  by rewrite /P /in_range => -[-> -> _ -> ->].
have GP d : proper d -> good_call cf P d.
  move=> PD; split=> // m0 s0 E0; have [SA NA SI] := PD.
  by case: (fit_facts SA NA SI E0) => [[]].
have GS : Forall (good_call cf P) cs by apply: Forall_impl G => d; apply: GP.
have [_ HP] := GP _ PR.
case: (run_wf P1 P2 caching GS) => [[-> _]|[xs [-> [W _]]]].
  by move=> E; case: (call_none PR HP) => _ /(_ _ _ E) [HA []].
case: (call_some P1 P2 PR W HP) => ys [r [-> _ _ HO]] /= E.
by case: (HO _ _ E) => HA [].
Qed.

Lemma constrained caching cs c m s : Forall (@proper F p l e) cs -> Forall (fun d => cl_init d = None) cs ->
  proper c -> cl_init c = None ->
  (do_call cf (run cf (fresh caching) cs) c).2 = Ok (m, s) -> invariant_outside (cf_psi_fixed cf) (cl_I c) m.
Proof.
move=> G GI PR EI.
set P := fun (A : mat) (I : seq nat) (m : model) => invariant_outside (cf_psi_fixed cf) I m.
have P1 A I J (m0 : model) : same_set I J -> P A I m0 -> P A J m0.
  by move=> [SI _] [H1 H2]; split=> // j NJ; apply: H1 => /SI.
have P2 A I (m0 m1 : model) : same_params m0 m1 -> P A I m0 -> P A I m1.
  by rewrite /P /invariant_outside => -[_ _ _ -> ->].
have GP d : proper d -> cl_init d = None -> good_call cf P d.
  move=> PD ED; split=> // m0 s0 E0; have [SA NA SI] := PD.
  by case: (fit_facts SA NA SI E0) => _; apply.
have GS : Forall (good_call cf P) cs.
  by apply/Forall_forall => d Hd; apply: GP; [exact: (proj1 (Forall_forall _ _) G) | exact: (proj1 (Forall_forall _ _) GI)].
have [_ HP] := GP _ PR EI.
case: (run_wf P1 P2 caching GS) => [[-> _]|[xs [-> [W _]]]].
  by move=> E; case: (call_none PR HP) => _ /(_ _ _ E) [].
case: (call_some P1 P2 PR W HP) => ys [r [-> _ _ HO]] /= E.
by case: (HO _ _ E).
Qed.
End Props.

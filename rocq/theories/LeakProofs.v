(** Proofs of C131: what the test folds decide. *)
From Coq Require Import ZArith QArith_base Lia List Permutation.
From mathcomp Require Import all_ssreflect all_algebra.
From Verif Require Import Base GraphModel GraphSpec ListModel NumModel NumSpec ScoreModel CacheSpec ScoreSpec.
From Verif Require Import MainModel MainSpec ListProofs PruneProofs PruneIProofs SelectProofs FitProofs LeakSpec.
Set Implicit Arguments.
Unset Strict Implicit.
Unset Printing Implicit Defensive.
Import Order.Theory GRing.Theory Num.Theory.
Local Open Scope nat_scope.
Local Open Scope ring_scope.

Lemma nodup_firstn_nth (T : Type) (xs : list T) k x : List.NoDup xs -> List.nth_error xs k = Some x -> ~ List.In x (firstn k xs).
Proof.
elim: xs k => [|y xs IH] [|k] //=; first by move=> _ _ [].
move=> /(@NoDup_cons_iff _ _ _) [N D] E [Q|]; last exact: IH.
by apply: N; rewrite Q; apply: nth_error_In E.
Qed.
Lemma nth_firstn_In (T : Type) (xs : list T) k k' x : (k < k')%N -> List.nth_error xs k = Some x -> List.In x (firstn k' xs).
Proof. by elim: xs k k' => [|y xs IH] [|k] [|k'] //= L; [move=> [->]; left|move=> E; right; apply: IH E]. Qed.

Section Pool.
Variables (F : realFieldType) (p l e : nat) (cf : conf F p l e).
Variable rnds : nat -> nat -> 'M[F]_p * 'M[F]_p.

(** The sets of targets of _prune_I differ. *)
Lemma pool_unique argsort (s : sobj F p l e) G rs : reached cf s.1 -> graph p G -> sorts argsort ->
  (prune_I cf rnds argsort None s G).2 = Ok rs ->
  forall m m' J J', List.In (m, J) rs -> List.In (m', J') rs -> same_set J J' -> (m, J) = (m', J').
Proof.
move=> HS HG SO E; case: (prune_I_chain rnds HS HG SO) => [[rs' [m0 [order [f [E' SZ _ [[PO _] _] H]]]]]|[x [E' _]]];
  rewrite E in E' => //; case: E' => Q; subst rs'.
have NO : List.NoDup order by apply: (Permutation_NoDup (Permutation_sym PO)); exact: seq_NoDup.
have LO : length order = p by rewrite (Permutation_length PO) seq_length.
have W k k' m m' J J' : (k < k')%N -> List.nth_error rs k = Some (m, J) -> List.nth_error rs k' = Some (m', J') -> same_set J J' -> False.
  move=> L Ek Ek' SJ.
  have Lk' : (k' <= p)%N by have /ssrnat.ltP := proj1 (nth_error_Some rs k') ltac:(by rewrite Ek'); rewrite [length rs]SZ.
  have Lk : (k < p)%N by apply: leq_trans L Lk'.
  case Ej : (List.nth_error order k) => [j|]; last by move/nth_error_None: Ej => /ssrnat.leP; rewrite LO leqNgt Lk.
  have Hj : (j < p)%N by have /in_seq [_ /ssrnat.ltP] := Permutation_in _ PO (nth_error_In _ _ Ej).
  have [_ _ H1] := H _ _ _ (ltnW Lk) Ek; have [_ _ H2] := H _ _ _ Lk' Ek'.
  have : List.In j J by apply/H1; split=> //; exact: nodup_firstn_nth.
  by move/(proj1 SJ j)/H2 => [_]; apply; exact: nth_firstn_In Ej.
move=> m m' J J' /(@In_nth_error _ _ _) [k Ek] /(@In_nth_error _ _ _) [k' Ek'] SJ.
case: (ltngtP k k') => L; first by case: (W _ _ _ _ _ _ L Ek Ek' SJ).
  by case: (W _ _ _ _ _ _ L Ek' Ek); case: SJ.
by move: Ek'; rewrite -L Ek => -[-> ->].
Qed.
End Pool.

Section Leak.
Variables (F : realFieldType) (p e : nat) (w : world F p e) (a : args F).
Local Notation sample := (seq 'rV[F]_p).
Local Notation entry := (entry F p e).

Lemma fit_h_entry tr tg prune t gs k h x : fit_h w a tr tg prune t gs k h = Ok x ->
  exists v G xs, x = Entry k v G xs (prune_graphs (train_conf w a tr h) (w_rnds w k) (w_fuel w) prune t (new_sobj F p h e) gs).1.
Proof.
rewrite /fit_h; case: ifP => // _; case: prune_graphs => s r.
move=> /(@bindOk _ _ _ _ _) [ms _ /(@bindOk _ _ _ _ _) [xs _ /(@bindOk _ _ _ _ _) [b _ [<-]]]].
by exists b.1, b.2, [seq (x.1, x.2.2) | x <- xs].
Qed.

(** The models from which the third fold selects *)
Definition pool_of tr (x : entry) (rs : seq (model F p (en_h x) e * seq nat)) : Prop :=
  (prune_I (train_conf w a tr (en_h x)) (w_rnds w (en_pos x)) (w_argsort w) None (en_obj x) (en_graph x)).2 = Ok rs.

Lemma run_inv data ig prune seed tr tg ti am J sc : (forall gs, ig = Some gs -> Forall (graph p) gs) ->
  (forall tr gs, ig = None -> fit_ges w tr = Ok gs -> Forall (graph p) gs) ->
  split_data (w_shuffle w seed) [seq data k | k <- enum 'I_e] (a_folds a) = Ok [:: tr; tg; ti] ->
  fit_all w a data ig prune None None seed = Ok (am, J, sc) ->
  exists gs hs d x rs xs m,
  [/\ (if ig is Some gs then Ok gs else fit_ges w tr) = Ok gs /\ numbers w a tr = Ok hs,
      fit_hs w a tr tg prune None gs [::] 0 hs = Ok d /\ select_h d = Ok x,
      last_at hs (en_pos x) (en_h x) /\ fit_h w a tr tg prune None gs (en_pos x) (en_h x) = Ok x,
      [/\ am = existT (fun l => model F p l e) (en_h x) m, pool_of tr rs & reached (train_conf w a tr (en_h x)) (en_obj x).1 /\ graph p (en_graph x)]
    & [/\ test_scores w ti rs = Ok xs, first_least xs (sc, (m, J)) & forall m' J', List.In (m', J') rs -> mA m' = en_graph x]].
Proof.
move=> G1 G2 ES; rewrite /fit_all ES [bind (Ok _) _]/=.
move=> /(@bindOk _ _ _ _ _) [gs Eg /(@bindOk _ _ _ _ _) [hs Eh /(@bindOk _ _ _ _ _) [d Ed /(@bindOk _ _ _ _ _) [x Ex Ei]]]].
have := Ed; rewrite fit_hs_table => Ed'.
have GS : Forall (graph p) gs by move: Eg; case: ig G1 G2 => [gs0|] G1 G2 => [[<-]|]; [apply: G1 | apply: G2].
have D0 : List.NoDup (List.map (@en_h F p e) [::]) by constructor.
have [D1 _ D3 D4] := table_spec (@fit_hE F p e w a tr tg prune None gs) D0 Ed'.
case: (select_h_spec D1) => [[_]|[x' []]]; rewrite Ex // => -[<-] Hx Lx.
case: (D3 _ Hx) => [[//]|[k [Hk Fx Lk]]]; rewrite add0n in Fx.
have [_ EP] := fit_hE Fx; rewrite -EP in Fx Hk Lk.
have [R [G HIG [GG SG]]] := fit_h_reached GS Fx.
move: Ei; rewrite /fit_I.
have EPI := erefl (prune_I (train_conf w a tr (en_h x)) (w_rnds w (en_pos x)) (w_argsort w) None (en_obj x) (en_graph x)).
move: {2}(prune_I _ _ _ _ _ _) EPI => [s r] EPI; rewrite EPI.
move=> /(@bindOk _ _ _ _ _) [rs Er /(@bindOk _ _ _ _ _) [xs Es /(@bindOk _ _ _ _ _) [b Hb [<- <- <-]]]].
have Ep : pool_of tr rs by rewrite /pool_of EPI.
exists gs, hs, d, x, rs, xs, b.2.1; split=> //; split=> //.
  by case: (best_scoring_spec xs) => [[_]|[b' []]]; rewrite Hb // => -[<-]; case: b {Hb} => [v [m J']].
by move=> m' J' HI; have [] := prune_I_sub R GG Ep HI.
Qed.

Lemma selects_of l ti (rs : seq (model F p l e * seq nat)) xs c x : test_scores w ti rs = Ok xs -> first_least xs (x, c) -> selects w ti rs c x.
Proof. by move=> /test_scores_spec H HL; exists xs. Qed.
Lemma selects_In l ti (rs : seq (model F p l e * seq nat)) c x : selects w ti rs c x -> List.In c rs.
Proof.
move=> [xs [H [us [vs [E _ _]]]]]; have : List.In (x, c) xs by rewrite E; apply/in_app_iff; right; left.
by elim: H {E} => // u v us' vs' [E1 _] _ IH [Q|/IH]; [left; rewrite -E1 Q|right].
Qed.

Hypothesis SO : sorts (w_argsort w).
Lemma third_fold data data' ig prune seed seed' tr tg ti ti' am J sc am' J' sc' : (forall gs, ig = Some gs -> Forall (graph p) gs) ->
  (forall tr gs, ig = None -> fit_ges w tr = Ok gs -> Forall (graph p) gs) ->
  split_data (w_shuffle w seed) [seq data k | k <- enum 'I_e] (a_folds a) = Ok [:: tr; tg; ti] ->
  split_data (w_shuffle w seed') [seq data' k | k <- enum 'I_e] (a_folds a) = Ok [:: tr; tg; ti'] ->
  fit_all w a data ig prune None None seed = Ok (am, J, sc) -> fit_all w a data' ig prune None None seed' = Ok (am', J', sc') ->
  exists h (pool : seq (model F p h e * seq nat)) m m',
  [/\ am = existT (fun l => model F p l e) h m /\ am' = existT (fun l => model F p l e) h m', mA m' = mA m,
      selects w ti pool (m, J) sc, selects w ti' pool (m', J') sc' & distinct_targets pool].
Proof.
move=> G1 G2 ES ES' E E'.
have [gs [hs [d [x [rs [xs [m [[Eg Eh] [Ed Ex] _ [Em Ep [R GG]] [Es HL HA]]]]]]]]] := run_inv G1 G2 ES E.
have [gs' [hs' [d' [x' [rs' [xs' [m' [[Eg' Eh'] [Ed' Ex'] _ [Em' Ep' _] [Es' HL' _]]]]]]]]] := run_inv G1 G2 ES' E'.
move: Eg'; rewrite Eg => -[Q]; subst gs'; move: Eh'; rewrite Eh => -[Q]; subst hs'.
move: Ed'; rewrite Ed => -[Q]; subst d'; move: Ex'; rewrite Ex => -[Q]; subst x'.
move: Ep'; rewrite /pool_of Ep => -[Q]; subst rs'.
have S1 := selects_of Es HL; have S2 := selects_of Es' HL'.
exists (en_h x), rs, m, m'; split=> //.
  by rewrite (HA _ _ (selects_In S1)) (HA _ _ (selects_In S2)).
by move=> m1 m2 J1 J2 H1 H2 H; case: (pool_unique R GG SO Ep H1 H2 H).
Qed.

Lemma last_at_inj hs k k' h : last_at hs k h -> last_at hs k' h -> k = k'.
Proof. by move=> [H1 H2] [H3 H4]; case: (ltngtP k k') => // L; [case: (H2 _ L)|case: (H4 _ L)]. Qed.

Lemma parameters data data' ig prune seed seed' tr tg ti tg' ti' am J sc am' J' sc' : (forall gs, ig = Some gs -> Forall (graph p) gs) ->
  (forall tr gs, ig = None -> fit_ges w tr = Ok gs -> Forall (graph p) gs) ->
  split_data (w_shuffle w seed) [seq data k | k <- enum 'I_e] (a_folds a) = Ok [:: tr; tg; ti] ->
  split_data (w_shuffle w seed') [seq data' k | k <- enum 'I_e] (a_folds a) = Ok [:: tr; tg'; ti'] ->
  fit_all w a data ig prune None None seed = Ok (am, J, sc) -> fit_all w a data' ig prune None None seed' = Ok (am', J', sc') ->
  projT1 am' = projT1 am -> mA (projT2 am') = mA (projT2 am) -> same_set J J' -> am' = am /\ J' = J.
Proof.
move=> G1 G2 ES ES' E E'.
have [gs [hs [d [x [rs [xs [m [[Eg Eh] _ [La Fx] [-> Ep [R GG]] [Es HL HA]]]]]]]]] := run_inv G1 G2 ES E.
have [gs' [hs' [d' [x' [rs' [xs' [m' [[Eg' Eh'] _ [La' Fx'] [-> Ep' _] [Es' HL' HA']]]]]]]]] := run_inv G1 G2 ES' E'.
move: Eg'; rewrite Eg => -[Q]; subst gs'; move: Eh'; rewrite Eh => -[Q]; subst hs'.
have I1 := selects_In (selects_of Es HL); have I2 := selects_In (selects_of Es' HL').
move=> /= EH EA; rewrite EH in La'; have EK := last_at_inj La La'; move=> SJ.
have [v [G [ys X]]] := fit_h_entry Fx; have [v' [G' [ys' X']]] := fit_h_entry Fx'; rewrite -EK EH in X'.
rewrite (HA _ _ I1) (HA' _ _ I2) in EA.
move: rs xs m Ep Es HL HA R GG I1 {La Fx La' Fx' EK EH} rs' xs' m' Ep' Es' HL' HA' I2 EA; rewrite X X' /= /pool_of /=.
move=> rs xs m Ep Es HL HA R GG I1 rs' xs' m' Ep' Es' HL' HA' I2 EA; rewrite EA Ep in Ep'; case: Ep' => Q; subst rs'.
by have [-> ->] := pool_unique R GG SO Ep I1 I2 SJ.
Qed.

Lemma first_least_fun (T : Type) (xs : seq (F * T)) x y : first_least xs x -> first_least xs y -> x = y.
Proof.
move=> [us [vs [E H1 H2]]] [us' [vs' [E' H1' H2']]]; rewrite E in E'.
have W u1 v1 u2 v2 (s t : F * T) : u1 ++ s :: v1 = u2 ++ t :: v2 -> (forall u, List.In u u2 -> t.1 < u.1) -> (forall v, List.In v v1 -> s.1 <= v.1) ->
    (size u1 < size u2)%N -> False.
  elim: u1 u2 => [|z u1 IH] [|z' u2] //=.
    move=> [Q1 Q2] A1 A2 _; have := A1 z' (or_introl erefl); rewrite -Q1.
    have /A2 L : List.In t v1 by rewrite Q2; apply/in_app_iff; right; left.
    by rewrite ltNge L.
  by move=> [_ Q] A1 A2 L; apply: (IH u2 Q) => // u Hu; apply: A1; right.
case: (ltngtP (size us) (size us')) => L; first by case: (W _ _ _ _ _ _ E' H1' H2 L).
  by case: (W _ _ _ _ _ _ (esym E') H1 H2' L).
elim: us us' L E' {E H1 H1'} => [|z us IH] [|z' us'] //= L [Q1 Q2] //; exact: (IH us' (eq_add_S _ _ L) Q2).
Qed.

Lemma second_fold data data' ig prune seed seed' tr tg ti tg' am J sc am' J' sc' : (forall gs, ig = Some gs -> Forall (graph p) gs) ->
  (forall tr gs, ig = None -> fit_ges w tr = Ok gs -> Forall (graph p) gs) ->
  split_data (w_shuffle w seed) [seq data k | k <- enum 'I_e] (a_folds a) = Ok [:: tr; tg; ti] ->
  split_data (w_shuffle w seed') [seq data' k | k <- enum 'I_e] (a_folds a) = Ok [:: tr; tg'; ti] ->
  fit_all w a data ig prune None None seed = Ok (am, J, sc) -> fit_all w a data' ig prune None None seed' = Ok (am', J', sc') ->
  projT1 am' = projT1 am -> mA (projT2 am') = mA (projT2 am) -> (am', J', sc') = (am, J, sc).
Proof.
move=> G1 G2 ES ES' E E'.
have [gs [hs [d [x [rs [xs [m [[Eg Eh] _ [La Fx] [-> Ep [R GG]] [Es HL HA]]]]]]]]] := run_inv G1 G2 ES E.
have [gs' [hs' [d' [x' [rs' [xs' [m' [[Eg' Eh'] _ [La' Fx'] [-> Ep' _] [Es' HL' HA']]]]]]]]] := run_inv G1 G2 ES' E'.
move: Eg'; rewrite Eg => -[Q]; subst gs'; move: Eh'; rewrite Eh => -[Q]; subst hs'.
have I1 := selects_In (selects_of Es HL); have I2 := selects_In (selects_of Es' HL').
move=> /= EH EA; rewrite EH in La'; have EK := last_at_inj La La'.
have [v [G [ys X]]] := fit_h_entry Fx; have [v' [G' [ys' X']]] := fit_h_entry Fx'; rewrite -EK EH in X'.
rewrite (HA _ _ I1) (HA' _ _ I2) in EA.
move: rs xs m Ep Es HL HA R GG I1 {La Fx La' Fx' EK EH} rs' xs' m' Ep' Es' HL' HA' I2 EA; rewrite X X' /= /pool_of /=.
move=> rs xs m Ep Es HL HA R GG I1 rs' xs' m' Ep' Es' HL' HA' I2 EA; rewrite EA Ep in Ep'; case: Ep' => Q; subst rs'.
by move: Es'; rewrite Es => -[Q]; subst xs'; case: (first_least_fun HL HL') => -> -> ->.
Qed.

Lemma class_parameters candidates data data' prune seed seed' tr tg ti tg' ti' ic J am ic' J' am' : Forall (graph p) candidates ->
  split_data (w_shuffle w 42) [seq data k | k <- enum 'I_e] (a_folds a) = Ok [:: tr; tg; ti] ->
  split_data (w_shuffle w 42) [seq data' k | k <- enum 'I_e] (a_folds a) = Ok [:: tr; tg'; ti'] ->
  equivalence_class w a candidates data prune seed = Ok (ic, J, am) ->
  equivalence_class w a candidates data' prune seed' = Ok (ic', J', am') ->
  projT1 am' = projT1 am -> mA (projT2 am') = mA (projT2 am) -> same_set J J' -> (ic', J', am') = (ic, J, am).
Proof.
move=> GC ES ES'; rewrite /equivalence_class.
move=> /(@bindOk _ _ _ _ _) [[[m1 J1] sc1] E1 /(@bindOk _ _ _ _ _) [c1 C1 [<- <- <-]]].
move=> /(@bindOk _ _ _ _ _) [[[m2 J2] sc2] E2 /(@bindOk _ _ _ _ _) [c2 C2 [<- <- <-]]] H1 H2 H3.
have [||Q1 Q2] := parameters _ _ ES ES' E1 E2 H1 H2 H3; [by move=> gs [<-]|by []|].
by subst; move: C2; rewrite C1 => -[->].
Qed.
Lemma ges_parameters data data' seed seed' tr tg ti tg' ti' ic J am ic' J' am' : (forall tr gs, fit_ges w tr = Ok gs -> Forall (graph p) gs) ->
  split_data (w_shuffle w 42) [seq data k | k <- enum 'I_e] (a_folds a) = Ok [:: tr; tg; ti] ->
  split_data (w_shuffle w 42) [seq data' k | k <- enum 'I_e] (a_folds a) = Ok [:: tr; tg'; ti'] ->
  equivalence_class_w_ges w a data seed = Ok (ic, J, am) ->
  equivalence_class_w_ges w a data' seed' = Ok (ic', J', am') ->
  projT1 am' = projT1 am -> mA (projT2 am') = mA (projT2 am) -> same_set J J' -> (ic', J', am') = (ic, J, am).
Proof.
move=> GC ES ES'; rewrite /equivalence_class_w_ges.
move=> /(@bindOk _ _ _ _ _) [[[m1 J1] sc1] E1 /(@bindOk _ _ _ _ _) [c1 C1 [<- <- <-]]].
move=> /(@bindOk _ _ _ _ _) [[[m2 J2] sc2] E2 /(@bindOk _ _ _ _ _) [c2 C2 [<- <- <-]]] H1 H2 H3.
have [||Q1 Q2] := parameters _ _ ES ES' E1 E2 H1 H2 H3; [by []|by move=> ? ? _; apply: GC|].
by subst; move: C2; rewrite C1 => -[->].
Qed.
End Leak.

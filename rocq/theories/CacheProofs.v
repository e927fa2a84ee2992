(** The cache is a finite map. *)
From Coq Require Import ZArith Lia List.
From mathcomp Require Import all_ssreflect.
From Verif Require Import Base GraphModel NumModel ScoreModel CacheSpec.
Set Implicit Arguments.
Unset Strict Implicit.
Unset Printing Implicit Defensive.

Lemma set_eqbP (I J : seq nat) : reflect (same_set I J) (set_eqb I J).
Proof.
rewrite /set_eqb; apply: (iffP andP); rewrite /same_set -!subsetb_incl; by case.
Qed.

Lemma mateqbP p A B : square p A -> square p B -> reflect (A = B) (mateqb A B).
Proof. by move=> HA HB; apply: (iffP idP) => /(mateqb_eq HA HB). Qed.

Lemma same_set_sym I J : same_set I J -> same_set J I.
Proof. by case. Qed.
Lemma same_set_trans I J K : same_set I J -> same_set J K -> same_set I K.
Proof. by case=> a b [c d]; split; [apply: incl_tran a c | apply: incl_tran d b]. Qed.

Section CacheProofs.
Variables (M S : Type) (copy : M -> res M) (p : nat).
Local Notation entry := (mat * seq nat * M * S)%type.
Definition eA (x : entry) : mat := x.1.1.1.
Definition eI (x : entry) : seq nat := x.1.1.2.
Definition em (x : entry) : M := x.1.2.
Definition es (x : entry) : S := x.2.
Definition key (A : mat) (I : seq nat) (x : entry) : bool := mateqb A (eA x) && set_eqb (eI x) I.

Definition lists (xs : seq entry) : cache M S := MkCache (map eA xs) (map eI xs) (map es xs) (map em xs).
(** No two entries have equal keys. *)
Definition distinct (xs : seq entry) : bool := pairwise (fun x y => ~~ key (eA y) (eI y) x) xs.
Definition squares (xs : seq entry) : Prop := forall x, In x xs -> square p (eA x).

Lemma keyP A I x : square p A -> square p (eA x) -> reflect (eA x = A /\ same_set (eI x) I) (key A I x).
Proof.
move=> HA Hx; apply: (iffP andP) => [[/(mateqbP HA Hx) -> /set_eqbP]|[<- /set_eqbP]] //.
by split=> //; apply/(mateqbP Hx Hx).
Qed.

Lemma filter_nth_iota (T : Type) (x0 : T) (P : pred T) s :
  [seq nth x0 s j | j <- [seq j <- iota 0 (size s) | P (nth x0 s j)]] = filter P s.
Proof.
by rewrite -[in RHS](mkseq_nth x0 s) /mkseq filter_map.
Qed.

Lemma find_ohead xs A I :
  let K := [seq k <- iota 0 (size xs) | mateqb A (nth [::] (map eA xs) k) && set_eqb (nth [::] (map eI xs) k) I] in
  (size K <= 1)%N -> find (lists xs) A I = Ok (ohead K).
Proof.
move=> K; rewrite /find /=; case E0 : (map eA xs) => [|a0 as0].
  by have -> : K = [::] by rewrite /K; case: (xs) E0.
rewrite -{a0 as0}E0 size_map.
set Ai := [seq k <- iota 0 (size xs) | mateqb A _].
have EK : K = [seq k <- Ai | set_eqb (nth [::] (map eI xs) k) I].
  by rewrite -filter_predI; apply: eq_filter => k /=; rewrite andbC.
case EA : Ai => [|i0 [|i1 rest]].
- by rewrite EK EA.
- by rewrite EK EA /=; case: ifP.
rewrite -EA => HK.
have -> : [seq k <- iota 0 (size [seq nth [::] (map eI xs) i | i <- Ai])
             | set_eqb (nth [::] [seq nth [::] (map eI xs) i | i <- Ai] k) I] =
          [seq j <- iota 0 (size Ai) | set_eqb (nth [::] (map eI xs) (nth 0%N Ai j)) I].
  rewrite size_map; apply: eq_in_filter => j; rewrite mem_iota add0n => /andP [_ Hj].
  by rewrite (nth_map 0%N).
have := filter_nth_iota 0%N (fun k => set_eqb (nth [::] (map eI xs) k) I) Ai.
rewrite -EK; move: HK; case: [seq j <- iota 0 (size Ai) | _] => [|j0 [|j1 js]] /= HK E; rewrite -E //.
by rewrite -E in HK.
Qed.

Lemma key_unique xs A I i j : squares xs -> distinct xs -> square p A -> (i < size xs)%N -> (j < size xs)%N ->
  forall x0, key A I (nth x0 xs i) -> key A I (nth x0 xs j) -> i = j.
Proof.
move=> SX DX SA Hi Hj x0 Ki Kj.
have SK k : (k < size xs)%N -> square p (eA (nth x0 xs k)).
  move=> Hk; apply: SX; elim: (xs) k Hk => [|y ys IH] [|k] //= Hk; [by left | right; exact: IH].
have NO a b : (a < b)%N -> (b < size xs)%N -> key A I (nth x0 xs a) -> key A I (nth x0 xs b) -> False.
  move=> ab Hb Ka Kb; have Ha := ltn_trans ab Hb.
  have /(pairwiseP x0) /(_ a b Ha Hb ab) /negP := DX; apply.
  move/(keyP _ SA (SK _ Ha)): Ka => [Ea Ia]; move/(keyP _ SA (SK _ Hb)): Kb => [Eb Ib].
  apply/(keyP _ (SK _ Hb) (SK _ Ha)); split; first by rewrite Ea Eb.
  exact: same_set_trans Ia (same_set_sym Ib).
case: (ltngtP i j) => // H; exfalso; [exact: (NO i j) | exact: (NO j i)].
Qed.

Lemma find_spec xs A I : squares xs -> distinct xs -> square p A ->
  find (lists xs) A I = Ok (if has (key A I) xs then Some (seq.find (key A I) xs) else None).
Proof.
move=> SX DX SA.
set K := [seq k <- iota 0 (size xs) | mateqb A (nth [::] (map eA xs) k) && set_eqb (nth [::] (map eI xs) k) I].
have EK : K = if has (key A I) xs then [:: seq.find (key A I) xs] else [::].
  case: (boolP (has _ xs)) => H.
    have [x0 _] : exists x0, x0 = x0 :> entry by case: (xs) H => // x ? _; exists x.
    have Hf := H; rewrite has_find in Hf; have Kf := nth_find x0 H.
    have mem k : (k \in K) = (k == seq.find (key A I) xs).
      rewrite mem_filter mem_iota add0n; apply/idP/eqP => [/andP [Hk /andP [_ Lk]]|->].
        have Kk : key A I (nth x0 xs k) by move: Hk Lk => /= Hk Lk; rewrite /key -!(nth_map x0 [::]).
        exact: (key_unique SX DX SA Lk Hf Kk Kf).
      by rewrite leq0n Hf !andbT !(nth_map x0).
    have U : uniq K by rewrite filter_uniq ?iota_uniq.
    by apply: perm_small_eq => //; apply: uniq_perm => // k; rewrite mem inE.
  apply/eqP; rewrite -[_ == _]negbK -has_filter; apply/hasPn => k; rewrite mem_iota add0n => /andP [_ Lk].
  have [x0 _] : exists x0, x0 = x0 :> entry by case: (xs) Lk => // x ? _; exists x.
  by rewrite !(nth_map x0) //; move: H; rewrite -all_predC => /(all_nthP x0) /(_ _ Lk).
rewrite (find_ohead (xs := xs)) -/K EK; by case: ifP.
Qed.

Lemma nth_error_map_nth (T U : Type) (f : T -> U) (xs : seq T) k x0 : (k < size xs)%N ->
  List.nth_error (map f xs) k = Some (f (nth x0 xs k)).
Proof. by elim: xs k => [|x xs IH] [|k] //= H; apply: IH. Qed.

Lemma read_spec xs A I x0 : squares xs -> distinct xs -> square p A ->
  read (lists xs) A I =
  Ok (if has (key A I) xs then let x := nth x0 xs (seq.find (key A I) xs) in Some (em x, es x) else None).
Proof.
move=> SX DX SA; rewrite /read find_spec //=; case: ifP => //=.
by rewrite has_find => H; rewrite !(nth_error_map_nth _ x0).
Qed.

Lemma write_spec xs A I m s : squares xs -> distinct xs -> square p A ->
  write copy (lists xs) A I m s =
  if has (key A I) xs then (lists xs, Err ValueError)
  else match copy m with
       | Ok m' => (lists (rcons xs (A, I, m', s)), Ok tt)
       | Err x => (MkCache (rcons (map eA xs) A) (rcons (map eI xs) I) (rcons (map es xs) s) (map em xs), Err x)
       end.
Proof.
move=> SX DX SA; rewrite /write find_spec //; case: ifP => //= _.
by case: (copy m) => // m'; rewrite /lists !map_rcons.
Qed.

Lemma squares_rcons xs A I m s : squares xs -> square p A -> squares (rcons xs (A, I, m, s)).
Proof.
move=> SX SA x; rewrite -cats1 => H; case: (in_app_or _ _ _ H) => [/SX|[<-|[]]] //.
Qed.
Lemma distinct_rcons xs A I m s : distinct xs -> has (key A I) xs = false -> distinct (rcons xs (A, I, m, s)).
Proof.
move=> DX H; rewrite /distinct pairwise_rcons; apply/andP; split=> //.
by move/negbT: H; rewrite -all_predC.
Qed.

(** * Histories *)
Hypothesis copies : forall m, exists m', copy m = Ok m'.

(** xs are the entries after history h *)
Definition tracks (h : seq (op M S)) (xs : seq entry) : Prop :=
  [/\ after copy h = lists xs, squares xs, distinct xs &
      forall A I, square p A ->
        (has (key A I) xs <-> exists o, In o h /\ writes A I o) /\
        forall x0, has (key A I) xs -> let x := nth x0 xs (seq.find (key A I) xs) in
          exists m, first_write h A I m (es x) /\ copy m = Ok (em x)].

Lemma first_write_app h h' A I (m : M) (s : S) : first_write h A I m s -> first_write (h ++ h') A I m s.
Proof.
case=> h1 [I' [h2 [-> [Hs Hf]]]]; exists h1, I', (h2 ++ h'); split=> //; exact: (esym (app_assoc h1 (OWrite A I' m s :: h2) h')).
Qed.

Lemma history_tracks h : Forall (fun o => square p (op_A o)) h -> exists xs, tracks h xs.
Proof.
elim/last_ind: h => [|h o IH] SH.
  exists [::]; split=> //.
  move=> A I SA; split=> //; split=> [|[o [H]]] //; by case: H.
rewrite -cats1 in SH; have [SH' SO'] := proj1 (Forall_app _ _ _) SH; have SO := Forall_inv SO'; clear SO' SH; rename SH' into SH.
case: (IH SH) => xs [Ea SX DX HX] {IH}.
have AF : after copy (rcons h o) =
  (fun c => match o with OWrite A J m s => (write copy c A J m s).1 | ORead _ _ => c end) (after copy h).
  by rewrite /after -cats1 fold_left_app.
have HI q : In q (rcons h o) <-> In q h \/ q = o.
  by rewrite -cats1 in_app_iff /=; split=> [[H|[H|[]]]|[H|H]]; auto.
case: o SO AF HI => [A0 I0 m0 s0|A0 I0] /= SO AF HI; last first.
  exists xs; split=> //; first by rewrite AF // Ea.
  move=> A I SA; case: (HX A I SA) => H1 H2; split.
    rewrite H1; split=> -[q [Hq Wq]]; exists q; split=> //; first by apply/HI; left.
    by case/HI: Hq => // Eq; rewrite Eq in Wq.
  by move=> x0 H; case: (H2 x0 H) => m [Hm Em]; exists m; split=> //; rewrite -cats1; apply: first_write_app.
have [H01 H02] := HX A0 I0 SO.
case: (boolP (has (key A0 I0) xs)) => K0.
  exists xs; split=> //; first by rewrite AF // Ea write_spec // K0.
  move=> A I SA; case: (HX A I SA) => H1 H2; split.
    rewrite H1; split=> -[q [Hq Wq]].
      by exists q; split=> //; apply/HI; left.
    case/HI: Hq => Hq; first by exists q.
    rewrite Hq in Wq; case: Wq => EA SI.
    case: (proj1 H01 K0) => q0 [Hq0 Wq0]; exists q0; split=> //.
    case: q0 {Hq0} Wq0 => //= A1 I1 _ _ [-> SI1]; split=> //; exact: same_set_trans SI1 SI.
  by move=> x0 H; case: (H2 x0 H) => m [Hm Em]; exists m; split=> //; rewrite -cats1; apply: first_write_app.
have [m' Em'] := copies m0.
have NK : has (key A0 I0) xs = false by apply/negbTE.
exists (rcons xs (A0, I0, m', s0)); split.
- by rewrite AF // Ea write_spec // NK Em'.
- exact: squares_rcons.
- exact: distinct_rcons.
move=> A I SA; case: (HX A I SA) => H1 H2.
have KN : A0 = A /\ same_set I0 I <-> key A I (A0, I0, m', s0).
  exact: (rwP (@keyP A I (A0, I0, m', s0) SA SO)).
split.
  rewrite has_rcons; split.
    case/orP => [/KN H|/H1 [q [Hq Wq]]]; first by exists (OWrite A0 I0 m0 s0); split=> //; apply/HI; right.
    by exists q; split=> //; apply/HI; left.
  case=> q [/HI [Hq|->] Wq]; apply/orP; last by left; apply/KN.
  by right; apply/H1; exists q.
move=> x0; rewrite has_rcons => H; rewrite /= -[rcons xs _]cats1 find_cat nth_cat.
case: (boolP (has (key A I) xs)) => K.
  by rewrite has_find in K; rewrite K; rewrite -has_find in K; case: (H2 x0 K) => m [Hm Em]; exists m;
     split=> //; rewrite -[rcons _ _]cats1; apply: first_write_app.
rewrite (negbTE K) orbF in H; rewrite ltnNge leq_addr /= addKn /= H /=.
exists m0; split=> //; case/KN: H => EA0 SI; subst A0.
exists h, I0, [::]; split; first by rewrite -cats1.
split=> //; apply/Forall_forall => q Hq Wq; move/negP: K; apply; apply/H1; exists q; split=> //.
Qed.

Lemma cache_map (h : seq (op M S)) A I : Forall (fun o => square p (op_A o)) h -> square p A ->
  ((exists o, In o h /\ writes A I o) /\
   (exists m (s : S) m', first_write h A I m s /\ copy m = Ok m' /\ read (after copy h) A I = Ok (Some (m', s))) /\
   forall m (s : S), write copy (after copy h) A I m s = (after copy h, Err ValueError)) \/
  ((forall o, In o h -> ~ writes A I o) /\ read (after copy h) A I = Ok None /\
   forall m (s : S), (write copy (after copy h) A I m s).2 = Ok tt).
Proof.
move=> SH SA; case: (history_tracks SH) => xs [-> SX DX HX].
case: (HX A I SA) => H1 H2; case: (boolP (has (key A I) xs)) => K.
  left; split; first exact/H1; split.
    have [x0 _] : exists x0, x0 = x0 :> entry by case: (xs) K => // x ? _; exists x.
    case: (H2 x0 K) => m [Fm Em]; exists m, (es (nth x0 xs (seq.find (key A I) xs))), (em (nth x0 xs (seq.find (key A I) xs))).
    by split=> //; split=> //; rewrite (read_spec _ x0) // K.
  by move=> m s; rewrite write_spec // K.
right; split; first by move=> o Ho Wo; move/negP: K; apply; apply/H1; exists o.
split; first by rewrite /read find_spec // (negbTE K).
by move=> m s; rewrite write_spec // (negbTE K); case: (copies m) => m' ->.
Qed.

(** The first write with a key is unique. *)
Lemma first_write_unique h A I (m m' : M) (s s' : S) :
  first_write h A I m s -> first_write h A I m' s' -> m = m' /\ s = s'.
Proof.
case=> h1 [I1 [h2 [-> [S1 F1]]]] [g1 [J1 [g2 [E [S2 F2]]]]].
elim: h1 g1 E F1 F2 => [|o h1 IH] [|o' g1] /= E F1 F2.
- by case: E.
- by case: E => E _; have := Forall_inv F2; rewrite -E; case.
- by case: E => E _; have := Forall_inv F1; rewrite E; case.
- case: E => _ E; apply: (IH g1 E); [exact: Forall_inv_tail F1 | exact: Forall_inv_tail F2].
Qed.
End CacheProofs.

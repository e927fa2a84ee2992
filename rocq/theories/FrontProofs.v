(** Proofs for C146. *)
From Coq Require Import List QArith Permutation Lia.
From mathcomp Require Import all_ssreflect.
From Verif Require Import Base ListModel NdModel ListProofs FoldProofs NdProofs FrontModel FrontSpec.
Set Implicit Arguments.
Unset Strict Implicit.
Unset Printing Implicit Defensive.
Local Close Scope Q_scope.

Section Front.
Variables (V C : Type) (shuffle : nat -> seq (seq V) -> seq (seq V)) (cov : nd V -> C) (cov_fails : seq (element V) -> bool).
Local Notation front := (fit_front shuffle cov cov_fails).
Local Notation fill xs f := [seq @with_rows V xr.1 xr.2 | xr <- zip xs f].

Lemma zip_left (A B : Type) (xs : seq A) (f : seq B) x : size f = size xs -> List.In x xs -> exists r, List.In (x, r) (zip xs f).
Proof.
elim: xs f => [|y xs IH] [|r f] //= [E] [<-|H]; first by exists r; left.
by have [r' Hr] := IH f E H; exists r'; right.
Qed.
Lemma zip_both (A B : Type) (xs : seq A) (f : seq B) xr : List.In xr (zip xs f) -> List.In xr.1 xs /\ List.In xr.2 f.
Proof. by elim: xs f => [|y xs IH] [|r f] //= [<-|/IH [H1 H2]] /=; split; auto. Qed.

Lemma fill_in xs f x : size f = size xs -> List.In x xs -> exists r, List.In (with_rows x r) (fill xs f).
Proof. by move=> E /(zip_left E) [r H]; exists r; apply/List.in_map_iff; exists (x, r). Qed.
Lemma in_fill (xs : seq (element V)) f y : List.In y (fill xs f) -> exists x r, [/\ y = with_rows x r, List.In x xs & List.In r f].
Proof. by move=> /List.in_map_iff [[x r] [<- /zip_both [H1 H2]]]; exists x, r. Qed.
Lemma size_fill (xs : seq (element V)) f : size f = size xs -> size (fill xs f) = size xs.
Proof. by move=> E; rewrite size_map size_zip E minnn. Qed.

Lemma has_lenP (xs : seq (element V)) : all (@has_len V) xs <-> forall x, List.In x xs -> x <> @NoLen V.
Proof.
elim: xs => [|y xs IH] //=; split.
  by case/andP=> Hy /IH H x [<-|/H] //; case: y Hy.
move=> H; apply/andP; split; first by case: y {H} (H y (or_introl erefl)).
by apply/IH => x Hx; apply: H; right.
Qed.

Lemma tuple_list solver ratios xs : front solver (TupleOf xs) ratios = front solver (ListOf xs) ratios.
Proof. by []. Qed.

(** The result when all elements have a length *)
Lemma front_lists solver ratios xs : permutes shuffle -> three_folds ratios -> (forall x, List.In x xs -> x <> @NoLen V) ->
  exists tr tg ti, [/\ split_data shuffle [seq rows_of x | x <- xs] ratios = Ok [:: tr; tg; ti],
    size tr = size xs &
    front solver (ListOf xs) ratios = if cov_fails (fill xs tg) || cov_fails (fill xs ti) then Err ValueError
      else score_init cov (DList C [seq as_array x | x <- fill xs tr]) solver].
Proof.
move=> HS [H3 Hn HQ] /has_lenP Hl.
have [_ H] := @split_data_spec _ shuffle [seq rows_of x | x <- xs] ratios HS Hn.
have [folds [E [L [LF _]]]] := H HQ.
case: folds E L LF => [|tr [|tg [|ti [|f fs]]]] E L LF; try by move: L; rewrite -[length ratios]/(size ratios) H3.
exists tr, tg, ti; split=> //.
  by have := LF tr (or_introl erefl); rewrite -/(size tr) -[length (map _ _)]/(size _) size_map.
rewrite /fit_front /split_value /=.
by move/Qeq_bool_iff: (HQ) => -> /=; rewrite Hl /= E.
Qed.

Lemma front_not_sequence solver ratios : three_folds ratios -> front solver (@NoSequence V) ratios = Err TypeError.
Proof. by case=> _ _ /Qeq_bool_iff E; rewrite /fit_front /split_value E. Qed.

Lemma front_no_len solver ratios xs : three_folds ratios -> List.In (@NoLen V) xs -> front solver (ListOf xs) ratios = Err TypeError.
Proof.
case=> _ _ /Qeq_bool_iff E Hx; rewrite /fit_front /split_value E /=.
by case: (boolP (all _ _)) => // /has_lenP /(_ _ Hx).
Qed.

Lemma front_rows solver ratios xs r : permutes shuffle -> three_folds ratios -> List.In (Rows r) xs ->
  front solver (ListOf xs) ratios = Err TypeError \/ front solver (ListOf xs) ratios = Err ValueError.
Proof.
move=> HS H3 Hr; case: (boolP (all (@has_len V) xs)) => [/has_lenP Hl|Hl]; last first.
  by left; case: H3 => _ _ /Qeq_bool_iff E; rewrite /fit_front /split_value E /= Hl.
have [tr [tg [ti [_ Es ->]]]] := front_lists solver HS H3 Hl.
case: ifP => _; [by right | left].
case: (score_init_list cov [seq as_array x | x <- fill xs tr] solver) => [[_ ->] //|[ys [E _]]].
have [r' Hr'] := fill_in Es Hr.
have: List.In (@as_array V (Rows r')) [seq as_array x | x <- fill xs tr] by apply: List.in_map.
by rewrite E => /List.in_map_iff [y []].
Qed.

(** Arrays only *)
Lemma front_arrays solver ratios xs : permutes shuffle -> three_folds ratios ->
  (forall x, List.In x xs -> exists w, columns w x) ->
  exists tr tg ti ys, [/\ split_data shuffle [seq rows_of x | x <- xs] ratios = Ok [:: tr; tg; ti],
    size tr = size xs, [seq as_array x | x <- fill xs tr] = [seq Some y | y <- ys] &
    cov_fails (fill xs tg) || cov_fails (fill xs ti) = true /\ front solver (ListOf xs) ratios = Err ValueError \/
    cov_fails (fill xs tg) || cov_fails (fill xs ti) = false /\
    let ok := [/\ forall y, List.In y ys -> nlen y <> 1%N,
                forall y y', List.In y ys -> List.In y' ys -> nth 0%N (nshape y) 1 = nth 0%N (nshape y') 1 & solver] in
    (ok -> front solver (ListOf xs) ratios = Ok ([seq cov y | y <- ys], [seq nlen y | y <- ys])) /\
    (~ ok -> front solver (ListOf xs) ratios = Err ValueError)].
Proof.
move=> HS H3 Hc.
have Hl : forall x, List.In x xs -> x <> @NoLen V by move=> x /Hc [w [s [r ->]]].
have [tr [tg [ti [E Es Ef]]]] := front_lists solver HS H3 Hl.
have HA y : List.In y [seq as_array x | x <- fill xs tr] -> exists w s r, y = Some (MkNd (size r :: w :: s) (flatten r)).
  move=> /List.in_map_iff [z [<- /in_fill [x [r [-> /Hc [w [s [r' ->]]] _]]]]].
  by exists w, s, r.
case: (score_init_list cov [seq as_array x | x <- fill xs tr] solver) => [[[y [/HA [w [s [r ->]]] //]]]|[ys [Ey H]]].
exists tr, tg, ti, ys; split=> //; rewrite Ef; case: ifP => Hf; [by left | right; split=> //].
case: H => [[[y [Hy Hd]] _]|[_ H]]; last exact: H.
have : List.In (Some y) [seq as_array x | x <- fill xs tr] by rewrite Ey; apply: List.in_map.
by case/HA=> w [s [r [Ey']]]; rewrite Ey' in Hd.
Qed.

Lemma front_widths solver ratios xs x x' w w' : permutes shuffle -> three_folds ratios ->
  (forall x, List.In x xs -> exists w, columns w x) -> List.In x xs -> List.In x' xs -> columns w x -> columns w' x' -> w <> w' ->
  front solver (ListOf xs) ratios = Err ValueError.
Proof.
move=> HS H3 Hc Hx Hx' [s [r Ex]] [s' [r' Ex']] Hw.
have [tr [tg [ti [ys [_ Es Ey [[_ ->] //|[_ [_ H]]]]]]]] := front_arrays solver HS H3 Hc.
apply: H => -[_ H _]; apply: Hw.
have [q Hq] := fill_in Es Hx; have [q' Hq'] := fill_in Es Hx'.
have {Hq} : List.In (as_array (with_rows x q)) [seq Some y | y <- ys] by rewrite -Ey; apply: List.in_map.
have {Hq'} : List.In (as_array (with_rows x' q')) [seq Some y | y <- ys] by rewrite -Ey; apply: List.in_map.
rewrite Ex Ex' /= => /List.in_map_iff [y [[Ny] Hy]] /List.in_map_iff [z [[Nz] Hz]].
by have := H _ _ Hz Hy; rewrite Ny Nz.
Qed.

Lemma front_solver ratios xs : permutes shuffle -> three_folds ratios ->
  (forall x, List.In x xs -> exists w, columns w x) -> front false (ListOf xs) ratios = Err ValueError.
Proof.
move=> HS H3 Hc.
have [tr [tg [ti [ys [_ _ _ [[_ ->] //|[_ [_ H]]]]]]]] := front_arrays false HS H3 Hc.
by apply: H => -[].
Qed.

Lemma front_one_dim solver ratios xs : permutes shuffle -> three_folds ratios ->
  (forall x, List.In x xs -> exists rows, x = Arr [::] rows) -> xs <> [::] ->
  (forall fold, (forall x, List.In x fold -> exists rows, x = Arr [::] rows) -> cov_fails fold = false) ->
  front solver (ListOf xs) ratios = Err IndexError.
Proof.
move=> HS H3 Hx Hne Hcov.
have Hl : forall x, List.In x xs -> x <> @NoLen V by move=> x /Hx [r ->].
have HF f : forall y, List.In y (fill xs f) -> exists rows, y = Arr [::] rows.
  by move=> y /in_fill [x [r [-> /Hx [r' ->] _]]]; exists r.
have [tr [tg [ti [E Es ->]]]] := front_lists solver HS H3 Hl.
rewrite (Hcov _ (HF tg)) (Hcov _ (HF ti)) /=.
case: (score_init_list cov [seq as_array x | x <- fill xs tr] solver) => [[[y [Hy Ny]]]|[ys [Ey [[_ -> //]|[H _]]]]].
  by move: Hy => /List.in_map_iff [z [Ez /HF [r Er]]]; move: Ez; rewrite Er Ny.
case: xs Hne Hx Es Ey {HF Hl E} => // x xs _ Hx Es Ey.
have [r Hr] := fill_in Es (or_introl erefl : List.In x (x :: xs)).
have : List.In (as_array (with_rows x r)) [seq Some y | y <- ys] by rewrite -Ey; apply: List.in_map.
have [r' ->] := Hx x (or_introl erefl).
by move=> /List.in_map_iff [y [[Ny] /H]]; rewrite Ny.
Qed.

Lemma thirds_three : three_folds thirds.
Proof. by split=> // r [<-|[<-|[<-|[]]]]. Qed.

Lemma front_accepts (v : value V) xs w : permutes shuffle -> covs_work cov_fails ->
  (forall x, List.In x xs -> sample_of w 8 x) -> v = ListOf xs \/ v = TupleOf xs ->
  exists cs ns, [/\ front true v thirds = Ok (cs, ns), size cs = size xs, size ns = size xs & forall n, List.In n ns -> (2 <= n)%N].
Proof.
move=> HS Hcov Hx Hv.
have Ev : front true v thirds = front true (ListOf xs) thirds by case: Hv => ->.
rewrite Ev {Ev Hv v}.
have Hc x : List.In x xs -> exists w, columns w x by move=> /Hx [r [-> _]]; exists w, [::], r.
have [tr [tg [ti [ys [E Es Ey H]]]]] := front_arrays true HS thirds_three Hc.
have [|tr' [tg' [ti' [E' HL]]]] := @folds_enough _ shuffle [seq rows_of x | x <- xs] HS.
  by move=> s /List.in_map_iff [x [<- /Hx [r [-> /leP]]]].
move: E'; rewrite E => -[E1 E2 E3]; subst tr' tg' ti'.
have HF f : List.In f [:: tr; tg; ti] -> forall y, List.In y (fill xs f) -> sample_of w 2 y.
  move=> Hf y /in_fill [x [r [-> /Hx [r' [-> _]] Hr]]]; exists r; split=> //.
  by apply/leP; exact: HL Hf Hr.
have HY y : List.In y ys -> exists r, y = MkNd [:: size r; w] (flatten r) /\ (2 <= size r)%N.
  move=> Hy; have : List.In (Some y) [seq as_array x | x <- fill xs tr] by rewrite Ey; apply: List.in_map.
  move=> /List.in_map_iff [z [Ez /(HF _ (or_introl erefl)) [r [Er Hr]]]].
  by move: Ez; rewrite Er => -[<-]; exists r.
have Sy : size ys = size xs.
  by have := congr1 size Ey; rewrite !size_map size_zip Es minnn.
exists [seq cov y | y <- ys], [seq nlen y | y <- ys]; rewrite !size_map; split=> //; last first.
  by move=> n /List.in_map_iff [y [<- /HY [r [-> Hr]]]].
case: H => [[Hf _]|[_ [H _]]].
  by move: Hf; rewrite (Hcov w _ (HF tg _)) ?(Hcov w _ (HF ti _)) //=; auto.
apply: H; split=> // [y /HY [r [-> /=]] Hr E1|y y' /HY [r [-> _]] /HY [r' [-> _]] //].
by move: Hr; rewrite /nlen /= in E1; rewrite E1.
Qed.
Lemma front_tuple xs w : permutes shuffle -> covs_work cov_fails -> (forall x, List.In x xs -> sample_of w 8 x) ->
  exists cs ns, [/\ front true (TupleOf xs) thirds = Ok (cs, ns), size cs = size xs, size ns = size xs & forall n, List.In n ns -> (2 <= n)%N].
Proof. by move=> HS Hc Hx; exact: (front_accepts HS Hc Hx (or_intror erefl)). Qed.
Lemma front_list xs w : permutes shuffle -> covs_work cov_fails -> (forall x, List.In x xs -> sample_of w 8 x) ->
  exists cs ns, [/\ front true (ListOf xs) thirds = Ok (cs, ns), size cs = size xs, size ns = size xs & forall n, List.In n ns -> (2 <= n)%N].
Proof. by move=> HS Hc Hx; exact: (front_accepts HS Hc Hx (or_introl erefl)). Qed.
Lemma front_type solver ratios : three_folds ratios -> front solver (@NoSequence V) ratios = Err TypeError /\
  forall xs, List.In (@NoLen V) xs -> front solver (ListOf xs) ratios = Err TypeError.
Proof. by move=> H; split; [exact: front_not_sequence | move=> xs; exact: front_no_len]. Qed.
End Front.

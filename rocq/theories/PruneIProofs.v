(** Proofs about the pruning of the targets (C54) and the selection of a model (C55). *)
From Coq Require Import ZArith Lia List Permutation.
From mathcomp Require Import all_ssreflect all_algebra.
From Verif Require Import Base GraphModel GraphSpec ListModel NumModel NumSpec ScoreModel CacheSpec ScoreSpec MainModel MainSpec.
From Verif Require Import ListProofs PruneProofs.
Set Implicit Arguments.
Unset Strict Implicit.
Unset Printing Implicit Defensive.
Import Order.Theory GRing.Theory Num.Theory.
Local Open Scope ring_scope.

Lemma takeE (T : Type) k (xs : seq T) : take k xs = firstn k xs.
Proof. by elim: xs k => [|x xs IH] [|k] //=; rewrite IH. Qed.

Section PruneI.
Variables (F : realFieldType) (p l e : nat) (cf : conf F p l e).
Variable rnds : nat -> nat -> 'M[F]_p * 'M[F]_p.
Local Notation model := (model F p l e).
Local Notation sobj := (sobj F p l e).

Lemma prune_I_loopS (s : sobj) G I j js : prune_I_loop cf rnds s G I (j :: js) =
  let I' := minus I [:: j] in
  sbind (sdag cf rnds s G I') (fun s r =>
  sbind (prune_I_loop cf rnds s G I' js) (fun s rs => (s, Ok ((r.1, I') :: rs)))).
Proof. by []. Qed.

Lemma prune_I_loop_spec (s : sobj) G I js : reached cf s.1 -> graph p G ->
  match (prune_I_loop cf rnds s G I js).2 with
  | Ok rs => size rs = size js /\
      forall k m J, (k < size js)%N -> List.nth_error rs k = Some (m, J) ->
        [/\ mA m = G, fitted_for cf J m & forall j, List.In j J <-> List.In j I /\ ~ List.In j (take k.+1 js)]
  | Err x => failed cf rnds [:: G] x
  end.
Proof.
move=> + HG; elim: js s I => [|j js IH] s I HS //.
rewrite prune_I_loopS; cbv zeta; move: (fun x => minus_In x I [:: j]); set I' := minus I [:: j] => EI.
case: (sdag_spec rnds I' HS HG); case: (sdag cf rnds s G I') => s' [[m x]|x]; rewrite ?sbindOk ?sbindErr /fst /snd; move=> HS' //.
move=> [EA HF _]; move: (IH s' I' HS'); case: (prune_I_loop cf rnds s' G I' js) => s2 [rs|y]; rewrite ?sbindOk ?sbindErr //.
rewrite /fst /snd => -[SZ H]; split; first by rewrite /= SZ.
move=> [|k] m' J /=.
  move=> _ [<- <-]; split=> // j0; rewrite EI take0 /=; tauto.
rewrite ltnS => Hk /(H k m' J Hk) [H1 H2 H3]; split=> // j0; rewrite H3 EI /=.
split; first by move=> [[A1 A2] A3]; split=> // -[A4|A4]; [apply: A2; left | apply: A3].
by move=> [A1 A2]; split; [split=> // -[A3|//]; apply: A2; left | move=> A3; apply: A2; right].
Qed.

Lemma ith_variance (m : model) (j : 'I_p) : nth 0 (variances m) j = variance (fun k => momegas m k j).
Proof. by rewrite /variances (nth_map j) ?size_enum_ord // nth_ord_enum. Qed.

Lemma size_variances (m : model) : size (variances m) = p.
Proof. by rewrite /variances size_map size_enum_ord. Qed.

(** C54 *)
Lemma prune_I_chain argsort (s : sobj) G : reached cf s.1 -> graph p G -> sorts argsort ->
  let r := (prune_I cf rnds argsort None s G).2 in
  (exists rs m0 order (f : nat -> F),
     [/\ r = Ok rs, size rs = p.+1, (forall j : 'I_p, f j = variance (fun k => momegas m0 k j)),
         increasing p f order /\ List.nth_error rs 0 = Some (m0, List.seq 0 p)
       & forall k m J, (k <= p)%N -> List.nth_error rs k = Some (m, J) ->
           [/\ mA m = G, fitted_for cf J m & forall j, List.In j J <-> (j < p)%N /\ ~ List.In j (firstn k order)]]) \/
  (exists x, r = Err x /\ failed cf rnds [:: G] x).
Proof.
move=> HS HG SO; rewrite /prune_I; have -> : length G = p by have [[]] := HG.
cbv zeta; case: (sdag_spec rnds (iota 0 p) HS HG); case: (sdag cf rnds s G _) => s' [[m0 x]|x]; rewrite ?sbindOk ?sbindErr /fst /snd; last first.
  by move=> _ H; right; exists x.
move=> HS' [EA HF _]; have SV := SO (variances m0); rewrite size_variances in SV.
have := prune_I_loop_spec (iota 0 p) (argsort (variances m0)) HS' HG.
case: (prune_I_loop cf rnds s' G _ _) => s2 [rs|y]; rewrite ?sbindOk ?sbindErr /fst /snd; last by move=> H; right; exists y.
have SZ : size (argsort (variances m0)) = p.
  by case: SV => PE _; have := Permutation_length PE; rewrite seq_length.
rewrite SZ => -[SR H]; left; exists ((m0, iota 0 p) :: rs), m0, (argsort (variances m0)), (nth 0 (variances m0)); split=> //.
- by rewrite /= SR.
- by move=> j; apply: ith_variance.
have II j : List.In j (iota 0 p) <-> (j < p)%N.
  have -> : iota 0 p = List.seq 0 p by []. rewrite in_seq; split=> [[_ /ssrnat.ltP H0]|/ssrnat.ltP H0] //; split; lia.
move=> [|k] m J /=.
  by move=> _ [<- <-]; split=> // j; rewrite II /=; tauto.
move=> Hk E; have [H1 H2 H3] := H k m J Hk E; split=> // j; rewrite H3 II.
by rewrite takeE.
Qed.

(** C54 with a threshold *)
Lemma prune_I_threshold argsort t (s : sobj) G : reached cf s.1 -> graph p G -> (0 < p)%N ->
  let r := (prune_I cf rnds argsort (Some t) s G).2 in
  (exists m J m0 mx,
     [/\ r = Ok [:: (m, J)], mA m = G /\ fitted_for cf J m, mA m0 = G /\ fitted_for cf (List.seq 0 p) m0,
         (exists j, variance (fun k => momegas m0 k j) = mx) /\ (forall j, variance (fun k => momegas m0 k j) <= mx)
       & (forall j, List.In j J -> (j < p)%N) /\
         forall j : 'I_p, List.In (j : nat) J <-> mx * t < variance (fun k => momegas m0 k j)]) \/
  (exists x, r = Err x /\ failed cf rnds [:: G] x).
Proof.
move=> HS HG p0; rewrite /prune_I; have -> : length G = p by have [[]] := HG.
cbv zeta; case: (sdag_spec rnds (iota 0 p) HS HG); case: (sdag cf rnds s G _) => s' [[m0 x]|x]; rewrite ?sbindOk ?sbindErr /fst /snd; last first.
  by move=> _ H; right; exists x.
move=> HS' [EA HF _]; rewrite size_variances.
have [mx Emx [Imx Bmx]] : exists2 mx, smax (variances m0) = Ok mx & mx \in variances m0 /\ forall y, y \in variances m0 -> y <= mx.
  case E : (variances m0) (size_variances m0) => [|v vs]; first by move=> E0; rewrite -E0 in p0.
  by move=> _; have := foldl_max v vs; exists (foldl Order.max v vs).
rewrite Emx; set J := [seq k <- _ | _].
case: (sdag_spec rnds J HS' HG); case: (sdag cf rnds s' G _) => s2 [[m y]|y]; rewrite ?sbindOk ?sbindErr /fst /snd; last first.
  by move=> _ H; right; exists y.
move=> HS2 [EA2 HF2 _]; left; exists m, J, m0, mx; split=> //.
  move: Imx Bmx; rewrite /variances => /mapP [j _ ->] Bmx; split; first by exists j.
  by move=> k; apply: (Bmx (col_var (momegas m0) k)); apply: map_f; rewrite mem_enum.
have IJ j : List.In j J <-> (j < p)%N /\ mx * t < nth 0 (variances m0) j.
  rewrite /J -[filter _ _]/(List.filter _ _) filter_In.
  have -> : iota 0 p = List.seq 0 p by [].
  rewrite in_seq; split=> [[[_ /ssrnat.ltP H0]]|[/ssrnat.ltP H0 H1]] //; split=> //; split; lia.
split; first by move=> j /IJ [].
by move=> j; rewrite IJ ith_variance; split=> [[]|].
Qed.
End PruneI.

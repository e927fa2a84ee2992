(** Proofs about the selection of a model and of the number of latents (C55), and what a result of _fit is (C56). *)
From Coq Require Import ZArith Lia List Permutation Sorted.
From mathcomp Require Import all_ssreflect all_algebra.
From Verif Require Import Base GraphModel GraphSpec ListModel NumModel NumSpec ScoreModel CacheSpec ScoreSpec MainModel MainSpec.
From Verif Require Import ListProofs PruneProofs PruneIProofs.
Set Implicit Arguments.
Unset Strict Implicit.
Unset Printing Implicit Defensive.
Import Order.Theory GRing.Theory Num.Theory.
Local Open Scope ring_scope.

Lemma nth_error_split_seq (T : Type) (xs : seq T) k x : List.nth_error xs k = Some x ->
  xs = firstn k xs ++ x :: skipn k.+1 xs.
Proof. by elim: xs k => [|y ys IH] [|k] //= => [[->]|/IH E] //; congr (_ :: _). Qed.

Lemma nth_error_nth (T : Type) (xs : seq T) k x d : List.nth_error xs k = Some x -> List.nth k xs d = x.
Proof. by elim: xs k => [|y ys IH] [|k] //= => [[->]|/IH]. Qed.

(** C55 *)
Lemma best_scoring_spec (F : realFieldType) (T : Type) (ts : seq (F * T)) :
  (ts = [::] /\ best_scoring ts = Err ValueError) \/ exists t, best_scoring ts = Ok t /\ first_least ts t.
Proof.
case: ts => [|t0 ts']; [by left | right]; set ts := t0 :: ts'; rewrite /best_scoring.
have irr (x : F) : (x < x) = false by rewrite ltxx.
have step (x y z : F) : (x < y) = true -> (z < y) = false -> (x < z) = true /\ (z < x) = false.
  move=> xy /negbT; rewrite -leNgt => yz; have xz := lt_le_trans xy yz; split=> //.
  by apply: le_gtF; apply: ltW.
have [k [-> [Hk [H1 H2]]]] := np_arg_spec (fun x y : F => x < y) 0 irr step [seq t.1 | t <- ts] ltac:(by []).
have LE : length [seq t.1 | t <- ts] = length ts by exact: (size_map fst ts).
have NE m d : (m < length ts)%coq_nat -> List.nth m [seq t.1 | t <- ts] 0 = (List.nth m ts d).1.
  by move=> /ssrnat.ltP Hm; rewrite !ListnthE (nth_map d).
rewrite LE in Hk H1.
rewrite /bind; case E: List.nth_error => [t|]; last by move/nth_error_None: E; lia.
exists t; split=> //; exists (firstn k ts), (skipn k.+1 ts); split; first exact: nth_error_split_seq.
  move=> u /(In_nth _ _ t) [m [Hm <-]]; rewrite firstn_length in Hm.
  have := H2 m ltac:(lia); rewrite (NE k t) // (NE m t); last lia.
  rewrite (nth_error_nth _ E) => H.
  have -> : List.nth m (firstn k ts) t = List.nth m ts t; last by [].
  rewrite -{2}(firstn_skipn k ts) app_nth1 //; rewrite firstn_length; lia.
move=> v /(In_nth _ _ t) [m [Hm <-]]; rewrite skipn_length in Hm.
have := H1 (k.+1 + m)%N ltac:(rewrite /addn /addn_rec; lia); rewrite (NE k t) // (NE (k.+1 + m)%N t); last by (rewrite /addn /addn_rec; lia).
rewrite (nth_error_nth _ E) => /negbT; rewrite -leNgt.
have -> : List.nth m (skipn k.+1 ts) t = List.nth (k.+1 + m)%N ts t; last by [].
have LF : length (firstn k.+1 ts) = k.+1 by rewrite firstn_length; lia.
rewrite -{2}(firstn_skipn k.+1 ts) app_nth2 LF /addn /addn_rec; last lia.
by congr List.nth; lia.
Qed.

(** ** sorted() *)
Section Sorted.
Variables (F : realFieldType) (T : Type) (key : T -> F * nat).
Definition kle (x y : T) : Prop := (key x).1 < (key y).1 \/ ((key x).1 = (key y).1 /\ ((key x).2 <= (key y).2)%N).

Lemma tuple_lt_spec x y : (key x).2 <> (key y).2 ->
  exists b, tuple_lt key x y = Ok b /\ (if b then kle x y else kle y x).
Proof.
rewrite /tuple_lt /kle; case: (key x) => sx hx; case: (key y) => sy hy /= N.
case: eqP => [->|/eqP NS].
  case: eqP => // _; exists (hx < hy)%N; split=> //; case: ifP => [H|/negbT]; first by right; rewrite ltnW.
  by rewrite -leqNgt => H; right.
exists (sx < sy); split=> //; case: ifP => [|/negbT]; first by left.
by rewrite -leNgt le_eqVlt eq_sym (negbTE NS) => H; left.
Qed.

Lemma kle_trans x y z : kle x y -> kle y z -> kle x z.
Proof.
rewrite /kle => -[H1|[E1 H1]] [H2|[E2 H2]].
- by left; apply: lt_trans H2.
- by left; rewrite -E2.
- by left; rewrite E1.
- by right; rewrite E1; split=> //; apply: leq_trans H2.
Qed.

Lemma ins_sort1_spec x ys : (forall y, In y ys -> (key x).2 <> (key y).2) -> StronglySorted kle ys ->
  exists zs, [/\ ins_sort1 key x ys = Ok zs, Permutation (x :: ys) zs & StronglySorted kle zs].
Proof.
elim: ys => [|y ys IH] D S /=.
  by exists [:: x]; split=> //; constructor=> //; constructor.
have N : (key y).2 <> (key x).2 by apply: nesym; apply: D; left.
have [b [-> Hb]] := tuple_lt_spec N; rewrite /=; case: b Hb => Hb.
  have [zs [-> PZ SZ]] := IH (fun z Hz => D z (or_intror Hz)) (StronglySorted_inv S).1.
  exists (y :: zs); split=> //; first by apply: Permutation_trans (Permutation.perm_swap _ _ _) _; constructor.
  constructor=> //; apply: (Permutation_Forall PZ); constructor=> //; exact: (StronglySorted_inv S).2.
exists [:: x, y & ys]; split=> //; constructor=> //; constructor=> //.
by apply: Forall_impl (StronglySorted_inv S).2 => z; apply: kle_trans.
Qed.

Lemma ins_sort_spec xs : List.NoDup (List.map (fun x => (key x).2) xs) ->
  exists ys, [/\ ins_sort key xs = Ok ys, Permutation xs ys & StronglySorted kle ys].
Proof.
elim: xs => [|x xs IH] /= D; first by exists [::]; split=> //; constructor.
have [D1 D2] : ~ In (key x).2 (List.map (fun x => (key x).2) xs) /\ List.NoDup (List.map (fun x => (key x).2) xs) by inversion D.
have [ys [-> PY SY]] := IH D2.
have DY y : In y ys -> (key x).2 <> (key y).2.
  move=> /(Permutation_in _ (Permutation_sym PY)) Hy E; apply: D1; rewrite E; exact: (in_map (fun x => (key x).2)).
have [zs [E PZ SZ]] := ins_sort1_spec DY SY; exists zs; split=> //.
by apply: Permutation_trans PZ; constructor.
Qed.
End Sorted.

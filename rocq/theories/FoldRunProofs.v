(** Samples that are too small for the folds (C106), and the numbers of latents tried by default (C69). *)
From Coq Require Import ZArith QArith_base List Permutation.
From mathcomp Require Import all_ssreflect all_algebra.
From Verif Require Import Base ListModel ListSpec NumModel ScoreModel MainModel MainSpec PruneProofs ScreeProofs FoldProofs.
Set Implicit Arguments.
Unset Strict Implicit.
Unset Printing Implicit Defensive.
Import Order.Theory GRing.Theory Num.Theory.
Local Open Scope nat_scope.
Local Open Scope ring_scope.

Section Run.
Variables (F : realFieldType) (p e : nat) (w : world F p e) (a : args F).
Hypothesis HF : a_folds a = thirds.
Hypothesis HS : forall seed k xs, Permutation (w_shuffle w seed k xs) xs.

Lemma data_nth (data : 'I_e -> seq 'rV[F]_p) (k : 'I_e) : nth_error [seq data k | k <- enum 'I_e] k = Some (data k).
Proof.
rewrite (nth_error_nth' _ [::]) ?ListnthE.
  by rewrite (nth_map k) ?size_enum_ord // nth_ord_enum.
by rewrite -[length _]/(size _) size_map size_enum_ord; apply/ssrnat.ltP.
Qed.

Lemma two_rejected h hs candidates data prune seed (k : 'I_e) : a_nums_latent a = Some (h :: hs) -> size (data k) = 2%N ->
  equivalence_class w a candidates data prune seed = Err ValueError.
Proof.
move=> HN H2; have [tr [tg [ti [Es [L T]]]]] := folds_two _ _ _ _ (HS 42) (data_nth data k) H2.
rewrite /equivalence_class /fit_all HF Es /= /numbers HN /= /fit_h.
have -> : too_small tr => //; apply/hasP; exists (nth [::] tr k); last by rewrite -ListnthE; apply/eqP; exact: T.
by apply: mem_nth; rewrite -[size tr]/(length tr) L -[length _]/(size _) size_map size_enum_ord.
Qed.

(** The training samples are empty, which passes the check. *)
Lemma one_accepted data : (forall k, size (data k) = 1%N) ->
  exists tr tg ti, [/\ split_data (w_shuffle w 42) [seq data k | k <- enum 'I_e] (a_folds a) = Ok [:: tr; tg; ti],
    forall k : 'I_e, nth [::] tr k = [::] & too_small tr = false].
Proof.
move=> H1; have [tr [tg [ti [Es [L [_ [_ H]]]]]]] := folds_sizes (w_shuffle w 42) [seq data k | k <- enum 'I_e] (HS 42).
have E0 (k : 'I_e) : nth [::] tr k = [::].
  by have [tr' [tg' [ti' []]]] := folds_single _ _ _ _ (HS 42) (data_nth data k) (H1 k); rewrite Es => -[<- _ _]; rewrite ListnthE.
exists tr, tg, ti; split=> //; first by rewrite HF.
apply/negbTE/hasPn => x /(nthP [::]) [i Hi <-].
have He : (i < e)%N by move: Hi; rewrite -[size tr]/(length tr) L -[length _]/(size _) size_map size_enum_ord.
by rewrite (E0 (Ordinal He)).
Qed.
Lemma one_class h hs data prune seed : (0 < e)%N -> a_nums_latent a = Some (h :: hs) -> (forall k, size (data k) = 1%N) ->
  equivalence_class w a [::] data prune seed = Err IndexError.
Proof.
move=> e0 HN H1; have [tr [tg [ti [Es _ T]]]] := one_accepted H1.
by rewrite /equivalence_class /fit_all Es /= /numbers HN /= /fit_h T.
Qed.
End Run.

Lemma single_accepted : forall (F : realFieldType) (p e : nat) (w : world F p e) (a : args F),
  a_folds a = thirds -> (forall seed k xs, Permutation (w_shuffle w seed k xs) xs) ->
  forall data, (forall k, size (data k) = 1%N) ->
  (exists tr tg ti, [/\ split_data (w_shuffle w 42) [seq data k | k <- enum 'I_e] (a_folds a) = Ok [:: tr; tg; ti],
     forall k : 'I_e, nth [::] tr k = [::] & too_small tr = false]) /\
  forall h hs prune seed, (0 < e)%N -> a_nums_latent a = Some (h :: hs) ->
    equivalence_class w a [::] data prune seed = Err IndexError.
Proof. move=> F p e w a HF HS data H1; split; [exact (one_accepted HF HS H1)|]. move=> h hs prune seed e0 HN; exact (one_class HF HS prune seed e0 HN H1). Qed.

(** C69 *)
Lemma numbers_scree (F : realFieldType) (p e : nat) (w : world F p e) (a : args F) X training :
  increasing_log (w_log w) -> a_nums_latent a = None -> (2 < p)%N ->
  let svds := [seq (w_svd w (w_cov w X)).2 0 j | j <- enum 'I_p] in
  (forall h, (0 < h < p)%N -> 0 < pooled svds h) ->
  exists k hs, [/\ numbers w a (X :: training) = Ok hs, (0 < k < p)%N, (forall h, h \in hs <-> (0 < h <= k)%N), sorted ltn hs &
    (forall h, (0 < h < p)%N -> pooled svds k <= pooled svds h) /\ (forall h, (0 < h < k)%N -> pooled svds k < pooled svds h)].
Proof.
move=> HL HN p2 svds H; have Sp : size svds = p by rewrite size_map size_enum_ord.
have [|//|k [E Hk H1 H2]] := @scree_pooled F (w_log w) (w_pi w) svds HL; first by rewrite Sp.
  by rewrite Sp.
rewrite Sp in Hk H1; exists k, (iota 1 k); split=> //.
- by rewrite /numbers HN -/svds E.
- by move=> h; rewrite mem_iota add1n ltnS.
- exact: iota_ltn_sorted.
Qed.

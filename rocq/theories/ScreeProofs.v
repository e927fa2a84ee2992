(** The choice of the number of latents from the singular values (C69, C78). *)
From Coq Require Import ZArith Lia List.
From mathcomp Require Import all_ssreflect all_algebra.
From Verif Require Import Base ListModel ListProofs MainModel MainSpec PruneProofs.
Set Implicit Arguments.
Unset Strict Implicit.
Unset Printing Implicit Defensive.
Import Order.Theory GRing.Theory Num.Theory.
Local Open Scope nat_scope.
Local Open Scope ring_scope.

Section Scree.
Variables (F : realFieldType) (log : F -> F) (pi : F).

Definition scree_val (svds : seq F) (h : nat) : F :=
  let s1 := take h svds in let s2 := drop h svds in
  let v := pooled svds h in
  gaussian_ll log pi s1 (mean s1) v + gaussian_ll log pi s2 (mean s2) v.

Lemma scatter_var (xs : seq F) : (size xs).-1%:R * (if (1 < size xs)%N then var1 xs else 0) = scatter xs.
Proof.
case: ltnP => H.
  by rewrite /var1 mulrC divfK // pnatr_eq0 -lt0n; case: (size xs) H => [|[]].
rewrite mulr0; case: xs H => [|x [|]] //= _; rewrite /scatter ?big_nil //.
by rewrite !big_cons !big_nil /avg big_cons big_nil !addr0 divr1 subrr expr0n.
Qed.

Lemma scree_ll_val (svds : seq F) h : (2 < size svds)%N -> (0 < h < size svds)%N ->
  scree_ll log pi svds h = Ok (scree_val svds h).
Proof.
move=> S /andP [h0 hp]; rewrite /scree_ll; case: eqP => [E|_]; first by rewrite E in S.
cbv zeta; rewrite /scree_val /pooled.
have E1 := scatter_var (take h svds); have E2 := scatter_var (drop h svds).
rewrite size_takel ?(ltnW hp) // in E1; rewrite size_drop -subn1 in E2.
by rewrite size_drop size_takel ?(ltnW hp) // E1 E2.
Qed.

Lemma scree_lls_val (svds : seq F) hs : (2 < size svds)%N -> (forall h, h \in hs -> (0 < h < size svds)%N) ->
  scree_lls log pi svds hs = Ok [seq scree_val svds h | h <- hs].
Proof.
move=> S; elim: hs => [|h hs IH] H //=; rewrite scree_ll_val ?H ?inE ?eqxx //= IH // => x Hx.
by apply: H; rewrite inE Hx orbT.
Qed.

Lemma scree_first (svds : seq F) : (2 < size svds)%N ->
  exists h, [/\ scree_selection log pi svds = Ok h, (0 < h < size svds)%N,
     forall h', (0 < h' < size svds)%N -> scree_val svds h' <= scree_val svds h
   & forall h', (0 < h' < h)%N -> scree_val svds h' < scree_val svds h].
Proof.
move=> S; rewrite /scree_selection scree_lls_val //; last first.
  by move=> h; rewrite mem_iota; case: (size svds) S => // n _; rewrite /= addnC addn1.
set l := [seq _ | _ <- _]; have SL : size l = (size svds).-1 by rewrite size_map size_iota.
have NL : l <> nil by move=> E; move: SL; rewrite E; case: (size svds) S => [|[]].
have irr (x : F) : (x < x) = false by rewrite ltxx.
have step (x y z : F) : (y < x) = true -> (y < z) = false -> (z < x) = true /\ (x < z) = false.
  move=> xy /negbT; rewrite -leNgt => yz; have xz := le_lt_trans yz xy; split=> //.
  by apply: le_gtF; apply: ltW.
have [k [Ek [Hk [H1 H2]]]] := np_arg_spec (fun x y : F => y < x) 0 irr step l NL.
have NV m : (m < (size svds).-1)%N -> List.nth m l 0 = scree_val svds m.+1.
  by move=> Hm; rewrite ListnthE (nth_map 0%N) ?size_iota // nth_iota // add1n.
have EL : length l = (size svds).-1 by exact: SL.
have P1 : ((size svds).-1.+1 = size svds)%N by case: (size svds) S.
have Hk' : (k < (size svds).-1)%N by rewrite -EL; apply/ssrnat.ltP.
exists k.+1; rewrite /bind Ek; split=> //.
- by rewrite /= -P1 ltnS.
- move=> [|h] // /andP [_]; rewrite -P1 ltnS => Hh.
  have := H1 h; rewrite EL !NV // => /(_ (@ssrnat.ltP _ _ Hh)) /negbT; by rewrite -leNgt.
- move=> [|h] // /andP [_]; rewrite ltnS => Hh.
  by have := H2 h (@ssrnat.ltP _ _ Hh); rewrite !NV // (ltn_trans Hh).
Qed.

(** Without the division by zero the code compares the logarithms of the pooled variances, as the profile likelihood does. *)

Lemma scatter0 xs : 0 <= @scatter F xs.
Proof. by rewrite /scatter; elim: xs (avg xs) => [|x xs IH] a; rewrite ?big_nil // big_cons addr_ge0 ?sqr_ge0. Qed.

Lemma like_aux (c n x s h w : F) : - (c * h) - x * w + (- (n * c * h) - s * w) = - ((n + 1) * c * h) - (x + s) * w.
Proof. by rewrite [(n + 1) * c]mulrDl mul1r !mulrDl !opprD addrACA [X in X + _ = _]addrC. Qed.
Lemma scree_aux (a b x y h w : F) : - a - b - x * h * w + (- a - b - y * h * w) = - (a + a + (b + b)) - (x + y) * (h * w).
Proof.
by rewrite !mulrDl !mulrA !opprD addrACA [X in X + _ = _]addrACA.
Qed.
Lemma like_val xs m v : log_likelihood log pi xs m v =
  - ((size xs)%:R * (log (2%:R * pi) + log v) / 2%:R) - (\sum_(x <- xs) (x - m) ^+ 2) / (2%:R * v).
Proof.
rewrite /log_likelihood.
elim: xs => [|x xs IH]; first by rewrite !big_nil !mul0r oppr0 addr0.
rewrite !big_cons IH /log_density (_ : (size (x :: xs))%:R = (size xs)%:R + 1 :> F); last by rewrite -[size _]addn1 natrD.
exact: like_aux.
Qed.

Lemma pooled_ratio (xs : seq F) h : (2 < size xs)%N -> 0 < pooled xs h ->
  (scatter (take h xs) + scatter (drop h xs)) / (2%:R * pooled xs h) = (size xs - 2)%N%:R / 2%:R.
Proof.
move=> S v0; have N : (size xs - 2)%N%:R != 0 :> F by rewrite pnatr_eq0 subn_eq0 -ltnNge.
rewrite {1}(_ : _ + _ = pooled xs h * (size xs - 2)%N%:R); last by rewrite /pooled divfK.
by rewrite [2%:R * _]mulrC -mulf_div divff ?mul1r // gt_eqF.
Qed.

Lemma profile_val (xs : seq F) h : (2 < size xs)%N -> (0 < h < size xs)%N -> 0 < pooled xs h ->
  profile log pi xs h = - ((size xs)%:R * (log (2%:R * pi) + log (pooled xs h)) / 2%:R) - (size xs - 2)%N%:R / 2%:R.
Proof.
move=> S /andP [h0 hp] v0; rewrite /profile !like_val // -(pooled_ratio S v0).
rewrite addrACA -!opprD -!mulrDl -natrD size_drop size_takel ?subnKC //; exact: ltnW.
Qed.

Lemma scree_val_val (xs : seq F) h : (2 < size xs)%N -> (0 < h < size xs)%N -> 0 < pooled xs h ->
  scree_val xs h = - (log (2%:R * pi) + log (pooled xs h)) - (size xs - 2)%N%:R / 2%:R.
Proof.
move=> S H v0; rewrite /scree_val /gaussian_ll -(pooled_ratio S v0).
rewrite [log (2%:R * pi) in RHS]splitr [log (pooled xs h) in RHS]splitr [(2%:R * _)^-1]invfM.
exact: scree_aux.
Qed.

(** The value the code maximises orders the splits as the profile log likelihood does. *)
Lemma scree_same (xs : seq F) h h' : (2 < size xs)%N -> (0 < h < size xs)%N -> (0 < h' < size xs)%N ->
  0 < pooled xs h -> 0 < pooled xs h' -> (scree_val xs h <= scree_val xs h') = (profile log pi xs h <= profile log pi xs h').
Proof.
move=> S H H' v v'; rewrite !scree_val_val // !profile_val // !ler_add2r !ler_opp2.
by rewrite ler_pmul2r ?invr_gt0 ?ltr0n // ler_pmul2l // ltr0n (ltn_trans _ S).
Qed.

Lemma scree_profile (svds : seq F) : (2 < size svds)%N -> (forall h, (0 < h < size svds)%N -> 0 < pooled svds h) ->
  exists h, [/\ scree_selection log pi svds = Ok h, (0 < h < size svds)%N,
     forall h', (0 < h' < size svds)%N -> profile log pi svds h' <= profile log pi svds h
   & forall h', (0 < h' < h)%N -> profile log pi svds h' < profile log pi svds h].
Proof.
move=> S P; have [h [E H H1 H2]] := scree_first S; exists h; split=> // h' H'.
  by rewrite -scree_same ?P //; apply: H1.
have H3 : (0 < h' < size svds)%N by case/andP: H' => -> /ltn_trans -> //; case/andP: H.
by have := H2 _ H'; rewrite !ltNge scree_same ?P.
Qed.

Lemma scree_pooled (svds : seq F) : increasing_log log ->
  (2 < size svds)%N -> (forall h, (0 < h < size svds)%N -> 0 < pooled svds h) ->
  exists h, [/\ scree_selection log pi svds = Ok h, (0 < h < size svds)%N,
     forall h', (0 < h' < size svds)%N -> pooled svds h <= pooled svds h'
   & forall h', (0 < h' < h)%N -> pooled svds h < pooled svds h'].
Proof.
move=> HL S P; have [h [E H H1 H2]] := scree_first S; exists h; split=> // h' H'.
  have := H1 _ H'; rewrite !scree_val_val ?P // ler_add2r ler_opp2 ler_add2l => L.
  by rewrite leNgt; apply/negP => /(HL _ _ (P _ H')); rewrite ltNge L.
have H3 : (0 < h' < size svds)%N by case/andP: H' => -> /ltn_trans -> //; case/andP: H.
have := H2 _ H'; rewrite !scree_val_val ?P // ltr_add2r ltr_opp2 ltr_add2l => L.
rewrite ltNge le_eqVlt; apply/negP => /orP [/eqP EQ|/(HL _ _ (P _ H3))]; first by rewrite EQ ltxx in L.
by rewrite ltNge (ltW L).
Qed.
End Scree.

(** Two variables: division by zero; one variable: no split *)
Lemma scree_two (F : realFieldType) (log : F -> F) pi (svds : seq F) : size svds = 2%N ->
  scree_selection log pi svds = Err ZeroDivisionError.
Proof. by case: svds => [|x [|y []]]. Qed.
Lemma scree_one (F : realFieldType) (log : F -> F) pi (svds : seq F) : (size svds <= 1)%N ->
  scree_selection log pi svds = Err ValueError.
Proof. by case: svds => [|x []]. Qed.

(** C78: the code counts the normalising constant once per sample *)
Lemma gaussian_ll_wrong (F : realFieldType) (log : F -> F) pi (xs : seq F) m v :
  gaussian_ll log pi xs m v = log_likelihood log pi xs m v <-> (size xs = 1)%N \/ log (2%:R * pi) + log v = 0.
Proof.
rewrite /gaussian_ll like_val // -opprD -mulrDl.
set u := log (2%:R * pi) + log v.
rewrite -[_ / 2%:R / v]mulrA -invfM; split.
  move/addIr/oppr_inj/(mulIf (_ : 2%:R^-1 != 0)); rewrite invr_eq0 pnatr_eq0 => /(_ isT) /eqP.
  rewrite -subr_eq0 -{1}[u]mul1r -mulrBl mulf_eq0 => /orP [|/eqP E]; last by right.
  by rewrite subr_eq0 eq_sym pnatr_eq1 => /eqP; left.
by case=> [-> | ->]; rewrite ?mul1r // mulr0.
Qed.

Lemma scree_range (F : realFieldType) (log : F -> F) (pi : F) (svds : list F) :
  ((2 < size svds)%N -> exists h, scree_selection log pi svds = Ok h /\ (0 < h < size svds)%N) /\
  (size svds = 2%N -> scree_selection log pi svds = Err ZeroDivisionError) /\
  ((size svds <= 1)%N -> scree_selection log pi svds = Err ValueError).
Proof.
split; last by split; [exact: scree_two | exact: scree_one].
by move=> /(scree_first log pi) [h [E H _ _]]; exists h.
Qed.

(** Proofs about gradient descent. *)
From Coq Require Import ZArith List.
From mathcomp Require Import all_ssreflect all_algebra.
From Verif Require Import Base GraphModel NumModel ScoreModel ScoreSpec.
Set Implicit Arguments.
Unset Strict Implicit.
Unset Printing Implicit Defensive.
Import Order.Theory GRing.Theory Num.Theory.
Local Open Scope ring_scope.

Section Bounds.
Variable F : realFieldType.
Implicit Types (xs : seq (seq F)) (bs : seq (F * option F)).

Lemma In_mem (x : F) s : List.In x s <-> x \in s.
Proof.
elim: s => [|y s IH] //=; rewrite inE; split.
  by case=> [->|/IH ->]; rewrite ?eqxx ?orbT.
by case/orP=> [/eqP ->|/IH ?]; [left|right].
Qed.

Lemma inside_nil_l bs : inside [::] bs. Proof. by case=> [|k]. Qed.
Lemma inside_nil_r xs : inside xs [::]. Proof. by case=> [|k]. Qed.
Lemma inside_cons x xs lo hi bs : inside (x :: xs) ((lo, hi) :: bs) <->
  [/\ (forall u, hi = Some u -> lo <= u), (forall v, v \in x -> lo < v /\ forall u, hi = Some u -> v < u) & inside xs bs].
Proof.
split.
  move=> H; case: (H 0%N x lo hi erefl erefl) => H1 H2.
  by split=> // [v /In_mem /H2 //|k]; apply: (H k.+1).
case=> H1 H2 H3 [|k] y lo' hi' /=; last exact: H3.
by case=> <- [<- <-]; split=> // v /In_mem /H2.
Qed.

Lemma within_spec xs bs :
  (within xs bs = Ok true /\ inside xs bs) \/
  (~ inside xs bs /\ (within xs bs = Ok false \/ within xs bs = Err ValueError)).
Proof.
elim: xs bs => [|x xs IH] [|[lo hi] bs] /=; try by left; split=> //; [exact: inside_nil_l | exact: inside_nil_r].
- by left; split=> //; exact: inside_nil_l.
- by left; split=> //; exact: inside_nil_l.
- by left; split=> //; exact: inside_nil_r.
case: ifP => [Hlo|Hlo].
  right; split; last by right.
  case/inside_cons=> /(_ _) H _ _; case: hi Hlo H => // u Hu /(_ u erefl); by rewrite leNgt Hu.
case: ifP => [Hx|/negbT].
  right; split; last by left.
  case/inside_cons=> _ H _; case/orP: Hx => /hasP [v /H [H1 H2]]; first by rewrite leNgt H1.
  by case: hi H2 {Hlo H} => // u /(_ u erefl); rewrite leNgt => ->.
rewrite negb_or => /andP [/hasPn H1 /hasPn H2].
have E : inside (x :: xs) ((lo, hi) :: bs) <-> inside xs bs.
  rewrite inside_cons; split=> [[]//|H]; split=> //.
    by move=> u E; rewrite E in Hlo; rewrite leNgt Hlo.
  move=> v Hv; split; first by rewrite ltNge; apply: H1.
  by move=> u E; have := H2 v Hv; rewrite E -ltNge.
by case: (IH bs) => [[H3 H4]|[H3 H4]]; [left|right]; split=> //; [exact/E | by move/E].
Qed.
End Bounds.

Section GD.
Variables (F : realFieldType) (X : Type) (sub : X -> F -> X -> X) (flat : X -> seq (seq F)).
Variables (loss : X -> res F) (grad : X -> res X) (threshold lr kz : F) (bounds : option (seq (F * option F))).
Local Notation gd_loop := (gd_loop sub flat loss grad threshold lr kz bounds).
Local Notation gd := (gd sub flat loss grad threshold lr kz bounds).
Local Notation descent := (descent sub flat loss grad bounds lr).

Lemma in_bounds_spec x :
  (in_bounds flat bounds x = Ok true /\ inside_opt (flat x) bounds) \/
  (~ inside_opt (flat x) bounds /\ (in_bounds flat bounds x = Ok false \/ in_bounds flat bounds x = Err ValueError)).
Proof.
rewrite /in_bounds /inside_opt; case: bounds => [bs|]; last by left.
case: (within_spec (flat x) bs) => [[-> H]|[H1 H2]]; first by left; split=> // b [<-].
by right; split=> // H; apply: H1; apply: H.
Qed.

(** The number of halvings so far. *)
Lemma gd_loop_ok fuel cX cl k g x l0 :
  inside_opt (flat cX) bounds -> loss cX = Ok cl ->
  (forall g', g = Some g' -> grad cX = Ok g') ->
  gd_loop fuel cX cl (2%:R ^+ k)^-1 g = Ok (x, l0) ->
  [/\ descent cX x, loss x = Ok l0, l0 <= cl & inside_opt (flat x) bounds].
Proof.
elim: fuel cX cl k g => [|fuel IH] cX cl k g IX LX G //=.
have Eg : (if g is Some g' then Ok g' else grad cX) = grad cX by case: g G => // g' /(_ g' erefl) ->.
rewrite Eg; case EG: (grad cX) => [g'|] //=.
set nX := sub _ _ _.
have Hk : (2%:R ^+ k)^-1 / 2%:R = (2%:R ^+ k.+1)^-1 :> F by rewrite exprSr invfM mulrC.
have Hy : nX = sub cX (lr / 2%:R ^+ k) g' by rewrite /nX mulrC.
case: (in_bounds_spec nX) => [[-> IN]|[IN [->|->]]] //=; last first.
  by rewrite Hk; apply: IH => // g'' [<-].
case EL: (loss nX) => [nl|] //=.
case: ifP => [/andP [Hlt _]|_].
  case=> <- <-; split=> //; last exact: ltW.
  by apply: (descent_step EG Hy IN LX EL Hlt); apply: descent_refl.
case: ifP => [Hlt|_].
  case/(IH _ _ _ _ IN EL _) => [//|D L1 L2 I1].
  split=> //; last by apply: le_trans L2 (ltW Hlt).
  exact: (descent_step EG Hy IN LX EL Hlt D).
case: ifP => [_ [<- <-]|_]; first by split=> //; apply: descent_refl.
by rewrite Hk; apply: IH => // g'' [<-].
Qed.

Lemma gd_ok fuel x0 x l0 : gd fuel x0 = Ok (x, l0) ->
  [/\ inside_opt (flat x0) bounds /\ inside_opt (flat x) bounds, descent x0 x &
      exists li, [/\ loss x0 = Ok li, loss x = Ok l0 & l0 <= li]].
Proof.
rewrite /ScoreModel.gd; case: (in_bounds_spec x0) => [[-> I0]|[_ [->|->]]] //=.
case EL: (loss x0) => [cl|] //=.
have <- : (2%:R ^+ 0)^-1 = 1 :> F by rewrite expr0 invr1.
by case/(gd_loop_ok I0 EL) => // D L1 L2 I1; split=> //; exists cl.
Qed.

(** Properties kept by the steps are kept. *)
Lemma descent_inv (P : X -> Prop) : (forall x g c, P x -> grad x = Ok g -> inside_opt (flat x) bounds -> P (sub x c g)) ->
  forall x y, descent x y -> inside_opt (flat x) bounds -> P x -> P y.
Proof.
move=> H x y; elim=> [//|x1 g k l1 l2 y1 z EG -> I1 _ _ _ _ IH] I0 P1.
by apply: IH => //; apply: H.
Qed.

Lemma within_noerr (xs ys : seq (seq F)) bs : inside xs bs -> (size ys <= size xs)%N -> within ys bs <> Err ValueError.
Proof.
elim: ys xs bs => [|y ys IH] [|x xs] [|[lo hi] bs] //=.
case/inside_cons=> H1 H2 H3 L; case: ifP => [Hlo|_].
  by case: hi Hlo H1 {H2} => // u Hu /(_ u erefl); rewrite leNgt Hu.
by case: ifP => // _; apply: IH H3 L.
Qed.

(** What errors come from: with total functions only the check at the start. *)
Hypothesis ENT : entrywise sub flat.
Hypothesis TL : forall x, inside_opt (flat x) bounds -> exists l, loss x = Ok l.
Hypothesis TG : forall x, inside_opt (flat x) bounds -> exists g, grad x = Ok g.

Lemma sub_noerr x c g : inside_opt (flat x) bounds -> in_bounds flat bounds (sub x c g) <> Err ValueError.
Proof.
rewrite /in_bounds /inside_opt; case: bounds => [bs|] // H.
apply: within_noerr (H bs erefl) _; rewrite ENT size_map size_zip; exact: geq_minl.
Qed.

Lemma gd_loop_err fuel cX cl k g ex :
  inside_opt (flat cX) bounds -> gd_loop fuel cX cl k g = Err ex -> ex = OutOfFuel.
Proof.
elim: fuel cX cl k g => [|fuel IH] cX cl k g IX /=; first by case.
have [g' ->] : exists g', (if g is Some g' then Ok g' else grad cX) = Ok g' by case: g => [g|]; [exists g | apply: TG].
rewrite /=; set nX := sub _ _ _.
have NV := @sub_noerr cX (k * lr) g' IX; rewrite -/nX in NV.
case: (in_bounds_spec nX) => [[-> IN]|[_ [->|/NV]]] //=; last exact: IH.
case: (TL IN) => nl -> /=.
case: ifP => // _; case: ifP => [_|_]; last by case: ifP => // _; apply: IH.
exact: IH.
Qed.

Lemma gd_err fuel x0 : 
  (~ inside_opt (flat x0) bounds /\ gd fuel x0 = Err ValueError) \/
  (inside_opt (flat x0) bounds /\ (gd fuel x0 = Err OutOfFuel \/ exists r, gd fuel x0 = Ok r)).
Proof.
rewrite /ScoreModel.gd; case: (in_bounds_spec x0) => [[-> I0]|[I0 [->|->]]]; [right|by left|by left].
split=> //=; case: (TL I0) => cl -> /=.
case E: (gd_loop _ _ _ _ _) => [r|ex]; first by right; exists r.
by left; rewrite (gd_loop_err I0 E).
Qed.
End GD.

(** * Termination *)
Section Term.
Variables (F : archiFieldType) (X : Type) (sub : X -> F -> X -> X) (flat : X -> seq (seq F)).
Variables (loss : X -> res F) (grad : X -> res X) (threshold lr kz : F) (bounds : option (seq (F * option F))).
Local Notation gd_loop := (gd_loop sub flat loss grad threshold lr kz bounds).
Local Notation gd := (gd sub flat loss grad threshold lr kz bounds).

Lemma exp2_ge n : (n%:R : F) <= 2%:R ^+ n.
Proof.
rewrite -natrX ler_nat; exact: ltnW (ltn_expl n (ltnSn 1)).
Qed.

(** Halving gets below every positive number. *)
Lemma halving (c d : F) : 0 < d -> exists n, forall k, (n <= k)%N -> `|c| / 2%:R ^+ k < d.
Proof.
move=> D0; have [n Hn] : exists n : nat, `|c| / d < n%:R.
  by exists (Num.bound (`|c| / d)); apply: archi_boundP; rewrite divr_ge0 // ltW.
exists n => k Hk; rewrite ltr_pdivr_mulr ?exprn_gt0 ?ltr0n //.
rewrite mulrC -ltr_pdivr_mulr //; apply: lt_le_trans Hn _.
apply: le_trans (exp2_ge k); by rewrite ler_nat.
Qed.

(** A strictly inside point stays inside for small steps. *)
Definition small_ok (xs gs : seq (seq F)) bs (c : F) :=
  inside [seq [seq v.1 - c * v.2 | v <- zip a.1 a.2] | a <- zip xs gs] bs.

Lemma small_entry (v w lo : F) hi : lo < v -> (forall u, hi = Some u -> v < u) ->
  exists d, 0 < d /\ forall c, `|c| < d -> lo < v - c * w /\ forall u, hi = Some u -> v - c * w < u.
Proof.
move=> Hlo Hhi.
have [m [m0 m1 m2]] : exists m, [/\ 0 < m, m <= v - lo & forall u, hi = Some u -> m <= u - v].
  case: hi Hhi => [u|] Hhi; last by exists (v - lo); rewrite subr_gt0; split=> //; rewrite lexx.
  exists (Num.min (v - lo) (u - v)); split.
  - by rewrite lt_minr !subr_gt0 Hlo Hhi.
  - by rewrite le_minl lexx.
  - by move=> u' [<-]; rewrite le_minl lexx orbT.
have W : 0 < `|w| + 1 by apply: ltr_paddl.
exists (m / (`|w| + 1)); split; first exact: divr_gt0.
move=> c Hc; have H : `|c * w| < m.
  rewrite normrM; apply: le_lt_trans (_ : `|c| * (`|w| + 1) < m); first by rewrite ler_wpmul2l // ler_addl.
  by rewrite -ltr_pdivl_mulr.
move: H; rewrite ltr_norml => /andP [H1 H2]; split.
  rewrite ltr_subr_addl -ltr_subr_addr; exact: lt_le_trans H2 m1.
move=> u E; rewrite ltr_subl_addr; apply: le_lt_trans (_ : u - m < _); last by rewrite ltr_add2l.
by rewrite ler_subr_addr addrC -ler_subr_addr; apply: m2.
Qed.

Lemma small_array (x g : seq F) lo hi : (forall v, v \in x -> lo < v /\ forall u, hi = Some u -> v < u) ->
  exists d, 0 < d /\ forall c, `|c| < d -> forall y, y \in [seq v.1 - c * v.2 | v <- zip x g] ->
    lo < y /\ forall u, hi = Some u -> y < u.
Proof.
elim: x g => [|v x IH] [|w g] H; try by exists 1; rewrite ltr01.
case: (IH g) => [y Hy|d1 [d10 D1]]; first by apply: H; rewrite inE Hy orbT.
case: (H v (mem_head _ _)) => Hlo Hhi; case: (small_entry w Hlo Hhi) => d2 [d20 D2].
exists (Num.min d1 d2); split; first by rewrite lt_minr d10 d20.
move=> c; rewrite lt_minr => /andP [H1 H2] y; rewrite /= inE => /orP [/eqP ->|Hy]; [exact: D2|exact: D1 H1 _ Hy].
Qed.

Lemma small_step (xs gs : seq (seq F)) bs : inside xs bs -> exists d, 0 < d /\ forall c, `|c| < d -> small_ok xs gs bs c.
Proof.
elim: xs gs bs => [|x xs IH] [|g gs] bs H.
- by exists 1; rewrite ltr01; split=> // c _; apply: inside_nil_l.
- by exists 1; rewrite ltr01; split=> // c _; apply: inside_nil_l.
- by exists 1; rewrite ltr01; split=> // c _; apply: inside_nil_l.
case: bs H => [|[lo hi] bs] H; first by exists 1; rewrite ltr01; split=> // c _; apply: inside_nil_r.
case/inside_cons: H => H1 H2 H3; case: (IH gs bs H3) => d1 [d10 D1].
case: (small_array g H2) => d2 [d20 D2].
exists (Num.min d1 d2); split; first by rewrite lt_minr d10 d20.
move=> c; rewrite lt_minr => /andP [L1 L2]; rewrite /small_ok /=; apply/inside_cons; split=> //.
  exact: D2.
exact: D1.
Qed.

Hypothesis ENT : entrywise sub flat.
Hypothesis TG : forall x, inside_opt (flat x) bounds -> exists g, grad x = Ok g.
Variable low : F.
Hypothesis TL : forall x, inside_opt (flat x) bounds -> exists l, loss x = Ok l /\ low <= l.
Hypothesis thr : 0 < threshold.
Hypothesis kz0 : 0 < kz.

Lemma small_steps x g : inside_opt (flat x) bounds -> exists d, 0 < d /\ forall c, `|c| < d -> inside_opt (flat (sub x c g)) bounds.
Proof.
rewrite /inside_opt; case: bounds => [bs|] H; last by exists 1; rewrite ltr01.
case: (small_step (flat g) (H bs erefl)) => d [d0 D]; exists d; split=> // c Hc b [<-].
rewrite ENT; exact: D.
Qed.

(** The loop returns from every state; N bounds the number of steps that can still be taken. *)
Lemma gd_loop_term (N : nat) cX cl k g :
  inside_opt (flat cX) bounds -> loss cX = Ok cl -> cl - low < N%:R * threshold ->
  exists n r, forall fuel, (n <= fuel)%N -> gd_loop fuel cX cl (2%:R ^+ k)^-1 g = Ok r.
Proof.
elim: N cX cl k g => [|N IHN] cX cl k g IX LX.
  rewrite mul0r subr_lt0; case: (TL IX) => l [El Hl].
  by move: El; rewrite LX => -[->]; rewrite ltNge Hl.
move=> HN.
have [g' Eg] : exists g', (if g is Some g' then Ok g' else grad cX) = Ok g' by case: (g) => [g0|]; [exists g0 | apply: TG].
case: (small_steps g' IX) => d [d0 D].
have dk0 : 0 < Num.min d kz by rewrite lt_minr d0 kz0.
case: (halving lr dk0) => n Hn.
have [j Ej] : exists j, j = (n - k)%N by exists (n - k)%N.
elim: j k g Eg Ej => [|j IHj] k g Eg Ej.
  have kn : (n <= k)%N by rewrite -subn_eq0 Ej.
  have Hs : `|(2%:R ^+ k)^-1 * lr| < Num.min d kz.
    rewrite normrM mulrC [X in _ * X]ger0_norm ?invr_ge0 ?exprn_ge0 ?ler0n //; exact: Hn.
  move: Hs; rewrite lt_minr => /andP [Hd Hk].
  set nX := sub cX ((2%:R ^+ k)^-1 * lr) g'.
  have IN : inside_opt (flat nX) bounds by apply: D.
  case: (TL IN) => nl [Enl _].
  have Bn : in_bounds flat bounds nX = Ok true by case: (in_bounds_spec flat bounds nX) => [[->]|[/(_ IN)]].
  case C1: ((nl < cl) && (`|nl - cl| < threshold)).
    by exists 1%N, (nX, nl); case=> // fuel _ /=; rewrite Eg /= -/nX Bn /= Enl /= C1.
  case C2: (nl < cl).
    case: (IHN nX nl k None IN Enl) => [|n1 [r Hr]].
      rewrite C2 /= in C1; have := C1; rewrite ltr0_norm ?subr_lt0 // opprB => /negbT; rewrite -leNgt => C3.
      have: nl + threshold <= cl by rewrite -ler_subr_addl.
      move=> C4; move: HN; rewrite -addn1 natrD mulrDl mul1r => HN.
      rewrite -(ltr_add2r threshold); apply: le_lt_trans HN; by rewrite addrAC ler_add2r.
    exists n1.+1, r; case=> // fuel Hf /=; rewrite Eg /= -/nX Bn /= Enl /= C2 /=; rewrite C2 /= in C1.
    by rewrite C1; apply: Hr.
  exists 1%N, (cX, cl); case=> // fuel _ /=; rewrite Eg /= -/nX Bn /= Enl /= C2 /=.
  by rewrite (le_trans (ler_norm _) (ltW Hk)).
have Hk : (2%:R ^+ k)^-1 / 2%:R = (2%:R ^+ k.+1)^-1 :> F by rewrite exprSr invfM mulrC.
case: (IHj k.+1 (Some g') erefl) => [|n1 [r1 Hr1]]; first by rewrite subnS -Ej.
set nX := sub cX ((2%:R ^+ k)^-1 * lr) g'.
have NV := @sub_noerr F X sub flat bounds ENT cX ((2%:R ^+ k)^-1 * lr) g' IX; rewrite -/nX in NV.
case: (in_bounds_spec flat bounds nX) => [[Bn IN]|[_ [Bn|/NV]]] //; last first.
  by exists n1.+1, r1; case=> // fuel Hf /=; rewrite Eg /= -/nX Bn /= Hk; apply: Hr1.
case: (TL IN) => nl [Enl _].
case C1: ((nl < cl) && (`|nl - cl| < threshold)).
  by exists 1%N, (nX, nl); case=> // fuel _ /=; rewrite Eg /= -/nX Bn /= Enl /= C1.
case C2: (nl < cl).
  case: (IHN nX nl k None IN Enl) => [|n2 [r Hr]].
    rewrite C2 /= in C1; have := C1; rewrite ltr0_norm ?subr_lt0 // opprB => /negbT; rewrite -leNgt => C3.
    have: nl + threshold <= cl by rewrite -ler_subr_addl.
    move=> C4; move: HN; rewrite -addn1 natrD mulrDl mul1r => HN.
    rewrite -(ltr_add2r threshold); apply: le_lt_trans HN; by rewrite addrAC ler_add2r.
  exists n2.+1, r; case=> // fuel Hf /=; rewrite Eg /= -/nX Bn /= Enl /= C2 /=; rewrite C2 /= in C1.
  by rewrite C1; apply: Hr.
case C3: ((2%:R ^+ k)^-1 * lr <= kz).
  by exists 1%N, (cX, cl); case=> // fuel _ /=; rewrite Eg /= -/nX Bn /= Enl /= C2 /= C3.
by exists n1.+1, r1; case=> // fuel Hf /=; rewrite Eg /= -/nX Bn /= Enl /= C2 /= C3 Hk; apply: Hr1.
Qed.

Lemma gd_term x0 : inside_opt (flat x0) bounds -> exists n r, forall fuel, (n <= fuel)%N -> gd fuel x0 = Ok r.
Proof.
move=> I0; case: (TL I0) => cl [El Hl].
have [N HN] : exists N : nat, (cl - low) / threshold < N%:R.
  by exists (Num.bound ((cl - low) / threshold)); apply: archi_boundP; rewrite divr_ge0 ?subr_ge0 // ltW.
rewrite ltr_pdivr_mulr // in HN.
case: (@gd_loop_term N x0 cl 0 None I0 El HN) => n [r Hr]; exists n, r => fuel Hf.
rewrite /ScoreModel.gd; case: (in_bounds_spec flat bounds x0) => [[-> _]|[/(_ I0)]] //=; rewrite El /=.
by have := Hr fuel Hf; rewrite expr0 invr1.
Qed.
End Term.

(** Completeness of Meek's rules: in a PDAG closed under the four rules that has a consistent extension, every
    undirected edge is oriented either way in some extension.  An extension is given by a ranking of the nodes. *)
From mathcomp Require Import all_ssreflect.
Set Implicit Arguments.
Unset Strict Implicit.
Unset Printing Implicit Defensive.

Section Meek.
Variables (T : finType) (d u : rel T).
Definition ad : rel T := fun x y => [|| d x y, d y x | u x y].
Hypothesis usym : symmetric u.
Hypothesis uirr : irreflexive u.
Hypothesis dirr : irreflexive d.
Hypothesis ud : forall x y, u x y -> d x y = false.
Hypothesis R1 : forall x y z, d x y -> u y z -> ad x z.
Hypothesis R2 : forall x y z, d x y -> d y z -> u x z = false.
Hypothesis R3 : forall i j k l, u i j -> u i k -> u i l -> d k j -> d l j -> k != l -> ad k l.
Hypothesis R4 : forall i j k h, u i j -> u i k -> u i h -> d k j -> d h k -> ad h j.

Lemma adC x y : ad x y = ad y x.
Proof. by rewrite /ad usym; case: (d x y); case: (d y x). Qed.
Lemma ad_irr x : ad x x = false.
Proof. by rewrite /ad dirr uirr. Qed.
Lemma d_ad x y : d x y -> ad x y.
Proof. by rewrite /ad => ->. Qed.
Lemma u_ad x y : u x y -> ad x y.
Proof. by rewrite /ad => ->; rewrite !orbT. Qed.
Lemma ad_neq x y : ad x y -> x != y.
Proof. by apply: contraTneq => ->; rewrite ad_irr. Qed.

(** The ranking r orients the edges between the nodes of V into a consistent extension. *)
Definition ext (V : {set T}) (r : T -> nat) : Prop :=
  [/\ {in V &, injective r},
      {in V &, forall x y, d x y -> r x < r y} &
      forall x y c, x \in V -> y \in V -> c \in V -> ad x c -> ad y c -> r x < r c -> r y < r c -> x != y ->
        ~~ ad x y -> d x c].

Definition psink (V : {set T}) (a : T) : bool :=
  [&& a \in V, [forall x in V, ~~ d a x] &
      [forall z in V, forall w in V, [&& u z a, ad w a & w != z] ==> ad w z]].

Lemma psinkP (V : {set T}) a : reflect [/\ a \in V, {in V, forall x, d a x = false} &
    forall z w, z \in V -> w \in V -> u z a -> ad w a -> w != z -> ad w z] (psink V a).
Proof.
apply: (iffP and3P) => [[Ha /forall_inP H1 /forall_inP H2]|[Ha H1 H2]].
  split=> // [x Hx|z w Hz Hw uz aw wz]; first exact: (negbTE (H1 x Hx)).
  by have /forall_inP /(_ _ Hw) := H2 _ Hz; rewrite uz aw wz.
split=> //; first by apply/forall_inP=> x /H1 ->.
by apply/forall_inP=> z Hz; apply/forall_inP=> w Hw; apply/implyP=> /and3P [? ? ?]; apply: H2.
Qed.

Lemma ext_neq V r x y : ext V r -> x \in V -> y \in V -> ad x y -> r x != r y.
Proof. by case=> I _ _ Hx Hy /ad_neq; apply: contraNneq => /I ->. Qed.
Lemma ext_flip V r x y : ext V r -> x \in V -> y \in V -> ad x y -> (r x < r y) = ~~ (r y < r x).
Proof. by move=> E Hx Hy /(ext_neq E Hx Hy) N; rewrite -leqNgt ltn_neqAle N. Qed.

Lemma ext_sub V r a : ext V r -> ext (V :\ a) r.
Proof.
case=> I O S; split=> [x y|x y|x y c]; rewrite !inE => /andP [_ Hx] /andP [_ Hy]; [exact: I | exact: O |].
by case/andP=> _ Hc; apply: S.
Qed.

Lemma last_psink V r a : ext V r -> a \in V -> {in V, forall x, r x <= r a} -> psink V a.
Proof.
move=> E Ha M; have [I O S] := E; apply/psinkP; split=> // [x Hx|z w Hz Hw uz aw wz].
  by apply/negP=> /(O _ _ Ha Hx); rewrite ltnNge M.
have lt x : x \in V -> ad x a -> r x < r a.
  by move=> Hx ax; rewrite ltn_neqAle (ext_neq E Hx Ha ax) M.
have az : ad z a by exact: u_ad.
apply/negPn/negP=> nwz; have := S z w a Hz Hw Ha az aw (lt _ Hz az) (lt _ Hw aw).
by rewrite eq_sym adC (ud uz) => /(_ wz nwz).
Qed.

Lemma last_node (V : {set T}) (r : T -> nat) : V != set0 -> exists2 a, a \in V & {in V, forall x, r x <= r a}.
Proof.
case/set0Pn=> x0 Hx; case: (@arg_maxnP _ x0 (mem V) r Hx) => a Ha M.
by exists a => // x; apply: M.
Qed.

Lemma add_sink V r a : psink V a -> ext (V :\ a) r -> exists r',
  [/\ ext V r', forall x, x != a -> r' x < r' a & forall x y, x != a -> y != a -> (r' x < r' y) = (r x < r y)].
Proof.
move=> /psinkP [Ha H1 H2] [I O S].
pose r' x := if x == a then (\max_x r x).+1 else r x.
have ra : r' a = (\max_x r x).+1 by rewrite /r' eqxx.
have rn x : x != a -> r' x = r x by rewrite /r' => /negbTE ->.
have lta x : x != a -> r' x < r' a by move=> N; rewrite ra rn // ltnS leq_bigmax.
exists r'; split=> // [|x y Hx Hy]; last by rewrite !rn.
have nlt c : (r' a < r' c) = false.
  have [->|N] := eqVneq c a; first by rewrite ltnn.
  by apply: negbTE; rewrite -leqNgt ltnW ?lta.
split.
- move=> x y Hx Hy; have [->|Nx] := eqVneq x a; have [->|Ny] := eqVneq y a => //.
  + by move=> E; have := lta _ Ny; rewrite E ltnn.
  + by move=> E; have := lta _ Nx; rewrite E ltnn.
  by rewrite !rn // => /I -> //; rewrite !inE ?Nx ?Ny.
- move=> x y Hx Hy dxy; have [E|Ny] := eqVneq y a; first by rewrite E lta //; apply: contraTneq dxy => ->; rewrite E dirr.
  have [E|Nx] := eqVneq x a; first by move: dxy; rewrite E H1.
  by rewrite !rn //; apply: O; rewrite ?inE ?Nx ?Ny.
move=> x y c Hx Hy Hc axc ayc.
have [->|Nx] := eqVneq x a; first by rewrite nlt.
have [->|Ny] := eqVneq y a; first by rewrite nlt.
move: axc ayc; have [->|Nc] := eqVneq c a => axc ayc; last first.
  by rewrite !rn // => ? ? ? ?; apply: (S x y c) => //; rewrite !inE ?Nx ?Ny ?Nc.
move=> _ _ xy nxy; move: (axc); rewrite /ad H1 //= => /orP [//|uxa].
by move: nxy; rewrite adC (H2 x y Hx Hy uxa ayc) // eq_sym.
Qed.

(** Reversal of a covered edge *)
Lemma cov_rev V r x y : ext V r -> x \in V -> y \in V -> u x y -> r x < r y ->
  (forall w, w \in V -> w != x -> ad w y -> r w < r y -> ad w x /\ r w < r x) ->
  (forall w, w \in V -> ad w x -> r w < r x -> ad w y) ->
  exists r', [/\ ext V r', r' y < r' x &
    forall z t, z \in V -> t \in V -> ad z t -> (z, t) != (x, y) -> (z, t) != (y, x) -> (r' z < r' t) = (r z < r t)].
Proof.
move=> E Hx Hy uxy ltxy C1 C2; have [I O S] := E.
have xy : x != y by exact: ad_neq (u_ad uxy).
pose r' z := if z == y then (r x).*2 else (r z).*2.+1.
have ry : r' y = (r x).*2 by rewrite /r' eqxx.
have rn z : z != y -> r' z = (r z).*2.+1 by rewrite /r' => /negbTE ->.
have rev : r' y < r' x by rewrite ry rn // ltnS.
have K z : z \in V -> z != x -> ad z y -> (r' z < r' y) = (r z < r y).
  move=> Hz zx azy; rewrite ry rn ?ad_neq // -doubleS leq_double.
  by apply/idP/idP => [/ltn_trans -> //|]; case/(C1 _ Hz zx azy).
have same z t : z \in V -> t \in V -> ad z t -> (z, t) != (x, y) -> (z, t) != (y, x) -> (r' z < r' t) = (r z < r t).
  move=> Hz Ht azt; rewrite !xpair_eqE.
  have [Et|Nt] := eqVneq t y.
    by rewrite andbT Et => zx _; rewrite K // -?Et //.
  have [Ez|Nz] := eqVneq z y => /= _ tx; last by rewrite !rn // ltnS ltn_double.
  have aty : ad t y by rewrite adC -Ez.
  have -> : (r' z < r' t) = ~~ (r' t < r' y).
    by rewrite Ez ry rn // -leqNgt ltnS leq_double leq_Sdouble.
  by rewrite K // Ez (ext_flip E Hy Ht) // adC.
exists r'; split=> //; split.
- move=> z t Hz Ht; have [->|Nz] := eqVneq z y; have [->|Nt] := eqVneq t y => //.
  + by rewrite ry rn // => H; have := congr1 odd H; rewrite /= !odd_double.
  + by rewrite ry rn // => H; have := congr1 odd H; rewrite /= !odd_double.
  by rewrite !rn // => -[/double_inj /I]; apply.
- move=> z t Hz Ht dzt; rewrite same ?O // ?d_ad //.
    by apply: contraTneq dzt => -[-> ->]; rewrite (ud uxy).
  by apply: contraTneq dzt => -[-> ->]; rewrite ud // usym.
move=> z t c Hz Ht Hc azc atc ltz ltt zt nzt.
have [Ec|Nc] := eqVneq c x.
  rewrite Ec in azc atc ltz ltt *.
  have [Ez|Nz] := eqVneq z y.
    have [Et|Nt] := eqVneq t y; first by rewrite Ez Et eqxx in zt.
    move: ltt; rewrite same ?xpair_eqE ?(negbTE xy) ?(negbTE Nt) ?andbF // => ltt.
    by move: nzt; rewrite Ez adC C2.
  have [Et|Nt] := eqVneq t y.
    move: ltz; rewrite same ?xpair_eqE ?(negbTE xy) ?(negbTE Nz) ?andbF // => ltz.
    by move: nzt; rewrite Et C2.
  apply: (S z t) => //; first by rewrite -same ?xpair_eqE ?(negbTE xy) ?(negbTE Nz) ?andbF.
  by rewrite -same ?xpair_eqE ?(negbTE xy) ?(negbTE Nt) ?andbF.
have nx w : w \in V -> ad w c -> r' w < r' c -> r w < r c.
  move=> Hw awc ltw; rewrite -same // !xpair_eqE ?(negbTE Nc) ?andbF //.
  apply/negP=> /andP [/eqP Ew /eqP Ey].
  by move: ltw; rewrite Ew Ey; apply/negP; rewrite -leqNgt ltnW.
by apply: (S z t) => //; apply: nx.
Qed.

Definition clique (Q : {set T}) := {in Q &, forall x y, x != y -> ad x y}.
Definition weak (V Q : {set T}) := exists r, ext V r /\
  forall w q, w \in V -> w \notin Q -> q \in Q -> ad w q -> r w < r q -> exists2 q', q' \in Q & d w q'.

Section Rotate.
Variables (V : {set T}) (a b : T).
Hypothesis Pa : psink V a.
Let N := [set y in V | u y a].
Let P := [set x in V | d x a && [exists y in N, u x y]].
Hypothesis bN : b \in N.
Hypothesis bmax : {in N, forall y, d b y = false}.

Lemma NP y : reflect (y \in V /\ u y a) (y \in N).
Proof. by rewrite inE; apply: andP. Qed.
Lemma PP x : reflect [/\ x \in V, d x a & exists2 y, y \in N & u x y] (x \in P).
Proof.
rewrite inE; apply: (iffP and3P) => -[H1 H2].
  by move=> /exists_inP [y Hy Hu]; split=> //; exists y.
by case=> y Hy Hu; split=> //; apply/exists_inP; exists y.
Qed.

Lemma S1 y z : y \in N -> z \in V -> ad z a -> z != y -> ad z y.
Proof. by case/NP=> Hy Hu; have /psinkP [_ _ H] := Pa => Hz; apply: H. Qed.
Lemma S2 y x : y \in N -> d x a -> d y x = false.
Proof. by case/NP=> Hy Hu dx; apply/negP=> dy; move: (R2 dy dx); rewrite Hu. Qed.
Lemma d_out x : x \in V -> d a x = false.
Proof. by have /psinkP [_ H _] := Pa; apply: H. Qed.

Lemma QPclique : clique (N :|: P).
Proof.
have PNad x y : x \in P -> y \in N -> ad x y.
  case/PP=> Hx dx _ yN; apply: S1 => //; first exact: d_ad.
  by apply: contraTneq dx => ->; case/NP: yN => _ /ud ->.
move=> x y; rewrite !in_setU => /orP [xN|xP] /orP [yN|yP] xy.
- by case/NP: (xN) => Hx Hu; apply: S1 => //; apply: u_ad.
- by rewrite adC; apply: PNad.
- exact: PNad.
have [Hx dx [z zN uxz]] := PP _ xP; have [Hy dy _] := PP _ yP.
have [Hz uz] := NP _ zN; have := PNad _ _ yP zN; rewrite /ad => /or3P [dyz|dzy|uyz].
- by rewrite -/(ad x y) adC; apply: (R1 dyz); rewrite usym.
- by rewrite (S2 zN dy) in dzy.
by rewrite -/(ad x y); apply: (R3 uz); rewrite 1?usym.
Qed.

Lemma PQ w : w \in V -> (exists2 q, q \in N :|: P & d w q) -> w \notin N :|: P -> d w a /\ {in N, forall y, d w y}.
Proof.
move=> Hw [q]; rewrite !in_setU negb_or => Hq dwq /andP [wN wP].
have dwa : d w a.
  case/orP: Hq => [qN|/PP [Hq dq [y yN uqy]]].
    have [Hq uq] := NP _ qN; have := R1 dwq uq; rewrite /ad d_out //= => /orP [//|uwa].
    by case/negP: wN; apply/NP.
  have [Hy uya] := NP _ yN.
  have awa : ad w a.
    have := R1 dwq uqy; rewrite /ad => /or3P [dwy|dyw|uwy].
    - exact: R1 dwy uya.
    - by move: (R2 dyw dwq); rewrite usym uqy.
    - by apply: (R4 uya _ _ dq dwq); rewrite usym.
  move: awa; rewrite /ad d_out //= => /orP [//|uwa].
  by case/negP: wN; apply/NP.
split=> // y yN; have [Hy uya] := NP _ yN.
have wy : w != y by apply: contraNneq wN => ->.
have := S1 yN Hw (d_ad dwa) wy; rewrite /ad => /or3P [//|dyw|uwy]; first by rewrite (S2 yN dwa) in dyw.
by case/negP: wP; apply/PP; split=> //; exists y.
Qed.

Let inv r := forall w q, w \in V :\ a -> w \notin N :|: P -> q \in N :|: P -> ad w q -> r w < r q ->
  d w a /\ {in N, forall y, d w y}.

Lemma QinV q : q \in N :|: P -> q \in V :\ a.
Proof.
rewrite in_setU => /orP [/NP [Hq uq]|/PP [Hq dq _]]; rewrite !inE Hq andbT.
  by apply: contraTneq uq => ->; rewrite uirr.
by apply: contraTneq dq => ->; rewrite dirr.
Qed.

Lemma bubble n r : #|[set q in N :|: P | r b < r q]| <= n -> ext (V :\ a) r -> inv r ->
  exists r', [/\ ext (V :\ a) r', inv r' & forall q, q \in N :|: P -> q != b -> r' q < r' b].
Proof.
have bQ : b \in N :|: P by rewrite in_setU bN.
elim: n r => [|n IH] r Hn E Hi.
  exists r; split=> // q qQ qb; move: Hn; rewrite leqn0 cards_eq0 => /eqP /setP /(_ q).
  rewrite in_set qQ in_set0 /= => /negbT.
  by rewrite (ext_flip E (QinV qQ) (QinV bQ)) // QPclique.
have [E0|[q0 Hq0]] := set_0Vmem [set q in N :|: P | r b < r q].
  by apply: (IH r) => //; rewrite E0 cards0.
case: (@arg_minnP _ q0 (mem [set q in N :|: P | r b < r q]) r Hq0) => q.
rewrite /= in_set => /andP [qQ ltq] Hmin.
have [I O S] := E.
have bq : b != q by apply: contraTneq ltq => ->; rewrite ltnn.
have ubq : u b q.
  have := QPclique bQ qQ bq; rewrite /ad => /or3P [dbq|dqb|//].
    move: qQ; rewrite in_setU => /orP [qN|/PP [_ dq _]]; first by rewrite bmax in dbq.
    by rewrite (S2 bN dq) in dbq.
  by move: (O _ _ (QinV qQ) (QinV bQ) dqb); rewrite ltnNge ltnW.
have [||r' [E' lt' same]] := cov_rev E (QinV bQ) (QinV qQ) ubq ltq.
- move=> w Hw wb awq ltw; have [wQ|wQ] := boolP (w \in N :|: P).
    have awb := QPclique wQ bQ wb; split=> //.
    rewrite (ext_flip E) // ?QinV //; apply/negP=> ltb.
    by have := Hmin w; rewrite /= in_set wQ ltb leqNgt ltw => /(_ isT).
  have [_ /(_ _ bN) dwb] := Hi _ _ Hw wQ qQ awq ltw.
  by split; [exact: d_ad | apply: O => //; exact: QinV].
- move=> w Hw awb ltw; have [wQ|wQ] := boolP (w \in N :|: P).
    by apply: QPclique => //; apply: contraTneq (ltn_trans ltw ltq) => ->; rewrite ltnn.
  have [_ /(_ _ bN) dwb] := Hi _ _ Hw wQ bQ awb ltw.
  exact: R1 dwb ubq.
apply: (IH r') => //.
  rewrite -ltnS (leq_trans _ Hn) //; apply: proper_card; apply/properP; split.
    apply/subsetP=> t; rewrite in_set => /andP [tQ ltt]; rewrite in_set tQ /=.
    have [Et|Nt] := eqVneq t q; first by rewrite Et.
    rewrite -same ?QinV //.
    - by apply: QPclique => //; apply: contraTneq ltt => ->; rewrite ltnn.
    - by rewrite xpair_eqE (negbTE Nt) andbF.
    - by rewrite xpair_eqE (negbTE bq).
  exists q; first by rewrite in_set qQ.
  by rewrite in_set qQ /= -leqNgt ltnW.
move=> w q' Hw wQ q'Q awq; rewrite same // ?(QinV q'Q) //; first exact: Hi.
  by apply: contraNneq wQ => -[-> _].
by apply: contraNneq wQ => -[-> _].
Qed.

Lemma rotate : weak (V :\ a) (N :|: P) ->
  exists r, [/\ ext V r, r a < r b & {in N, forall y, y != b -> r y < r b}].
Proof.
have bQ : b \in N :|: P by rewrite in_setU bN.
case=> r [E Hw].
have Hi : inv r.
  move=> w q Hwa wQ qQ awq ltw; apply: PQ => //; first by move: Hwa; rewrite !inE => /andP [].
  by apply: (Hw w q).
have {E Hi} [r1 [E Hi lt1]] := bubble (leqnn _) E Hi.
have [Ha Hout _] := psinkP _ _ Pa.
have [r2 [E2 lt2 same2]] := add_sink Pa E.
have [bV uba] := NP _ bN.
have ba : b != a by exact: ad_neq (u_ad uba).
have ltQ q : q \in N :|: P -> q != b -> r2 q < r2 b.
  by move=> qQ qb; rewrite same2 ?lt1 //; have := QinV qQ; rewrite !inE => /andP [].
have [_ O2 _] := E2.
have [||r' [E' lt' same]] := cov_rev E2 bV Ha uba (lt2 _ ba).
- move=> w Hw' wb awa _; have wa := ad_neq awa; have [wQ|wQ] := boolP (w \in N :|: P).
    by split; [exact: QPclique | exact: ltQ].
  have dwa : d w a.
    by move: awa; rewrite /ad Hout //= => /orP [//|uwa]; case/negP: wQ; rewrite in_setU; apply/orP; left; apply/NP.
  have awb := S1 bN Hw' awa wb.
  have dwb : d w b.
    move: awb; rewrite /ad => /or3P [//|dbw|uwb]; first by rewrite (S2 bN dwa) in dbw.
    by case/negP: wQ; rewrite in_setU; apply/orP; right; apply/PP; split=> //; exists b.
  by split=> //; apply: O2.
- move=> w Hw' awb ltw; have wa : w != a.
    by apply: contraTneq ltw => ->; rewrite -leqNgt ltnW ?lt2.
  have [wQ|wQ] := boolP (w \in N :|: P).
    by move: wQ; rewrite in_setU => /orP [/NP [_ /u_ad]|/PP [_ /d_ad]].
  have Hwa : w \in V :\ a by rewrite in_setD1 wa.
  have ltw1 : r1 w < r1 b by rewrite -same2.
  have [dwa _] := Hi w b Hwa wQ bQ awb ltw1; exact: d_ad.
exists r'; split=> // y yN yb; have [yV uya] := NP _ yN.
rewrite same ?ltQ // ?in_setU ?yN //.
- by apply: QPclique => //; rewrite in_setU yN.
- by rewrite xpair_eqE (negbTE yb).
- by rewrite xpair_eqE (negbTE (ad_neq (u_ad uya))).
Qed.
End Rotate.

Lemma weak_all n (V Q : {set T}) : #|V| <= n -> Q \subset V -> clique Q -> (exists r, ext V r) -> weak V Q.
Proof.
elim: n V Q => [|n IH] V Q Hn QV CQ [r0 E0].
  move: Hn; rewrite leqn0 cards_eq0 => /eqP EV; exists r0; split=> // w q; by rewrite EV in_set0.
have cardD a : a \in V -> #|V :\ a| <= n by move=> Ha; move: Hn; rewrite (cardsD1 a V) Ha ltnS.
have [/exists_inP [y]|nosink] := boolP [exists y in V :\: Q, psink V y].
  rewrite !inE => /andP [yQ yV] Py.
  have [r [E Hr]] : weak (V :\ y) Q.
    apply: IH => //; [exact: cardD | by apply/subsetD1P | by exists r0; exact: ext_sub].
  have [r' [E' lt' same']] := add_sink Py E; exists r'; split=> // w q Hw wQ qQ awq ltw.
  have qy : q != y by apply: contraNneq yQ => <-.
  have wy : w != y by apply: contraTneq ltw => ->; rewrite -leqNgt ltnW ?lt'.
  by apply: (Hr w q) => //; [rewrite !inE wy | rewrite -same'].
have sinkQ y : psink V y -> y \in Q.
  move=> Py; apply/negPn/negP=> yQ; case/negP: nosink; apply/exists_inP; exists y => //.
  by rewrite !inE yQ; case/psinkP: Py.
have [EV|NV] := eqVneq V set0; first by exists r0; split=> // w q; rewrite EV in_set0.
have [a Ha Ma] := last_node r0 NV.
have Pa := last_psink E0 Ha Ma; have aQ := sinkQ _ Pa.
have [_ Hout _] := psinkP _ _ Pa.
have [/forall_inP all|] := boolP [forall b in V, u b a ==> (b \notin Q) ==> [exists q in Q, d b q]].
  have [r [E Hr]] : weak (V :\ a) (Q :\ a).
    apply: IH; [exact: cardD | exact: setSD | | by exists r0; exact: ext_sub].
    by move=> x y; rewrite !inE => /andP [_ xQ] /andP [_ yQ]; apply: CQ.
  have [r' [E' lt' same']] := add_sink Pa E; exists r'; split=> // w q Hw wQ qQ awq ltw.
  have wa : w != a by apply: contraNneq wQ => ->.
  have [Eq|qa] := eqVneq q a.
    move: awq; rewrite Eq /ad Hout //= => /orP [dwa|uwa]; first by exists a.
    by have := all w Hw; rewrite uwa wQ /= => /exists_inP.
  have Hwa : w \in V :\ a by rewrite in_setD1 wa.
  have wQa : w \notin Q :\ a by rewrite in_setD1 (negbTE wQ) andbF.
  have qQa : q \in Q :\ a by rewrite in_setD1 qa.
  have ltw1 : r w < r q by rewrite -same'.
  have [q' q'Q dwq] := Hr w q Hwa wQa qQa awq ltw1.
  by exists q' => //; move: q'Q; rewrite inE => /andP [].
rewrite negb_forall_in => /exists_inP [b0 b0V].
rewrite negb_imply negb_imply => /and3P [ub0 b0Q nb0].
pose B := [set b in V | [&& u b a, b \notin Q & ~~ [exists q in Q, d b q]]].
have NB : B != set0 by apply/set0Pn; exists b0; rewrite inE b0V ub0 b0Q.
have [b] := last_node r0 NB; rewrite inE => /and4P [bV uba bQ nb] Mb.
have [_ O0 _] := E0.
have bN : b \in [set y in V | u y a] by rewrite inE bV.
have bmax : {in [set y in V | u y a], forall y, d b y = false}.
  move=> y; rewrite inE => /andP [yV uya]; apply/negP=> dby.
  have yQ : y \notin Q by apply: contraNN nb => yQ; apply/exists_inP; exists y.
  have yB : y \in B.
    rewrite inE yV uya yQ /=; apply: contraNN nb => /exists_inP [q qQ dyq]; apply/exists_inP; exists q => //.
    have qV : q \in V by exact: (subsetP QV).
    have qa : q != a by apply: contraTneq dyq => ->; rewrite ud.
    have qb : q != b by apply: contraNneq bQ => <-.
    have := S1 Pa bN qV (CQ _ _ qQ aQ qa) qb; rewrite /ad => /or3P [dqb|//|uqb].
      by have := ltn_trans (O0 _ _ qV bV dqb) (ltn_trans (O0 _ _ bV yV dby) (O0 _ _ yV qV dyq)); rewrite ltnn.
    by have := R2 dby dyq; rewrite usym uqb.
  by have := O0 _ _ bV yV dby; rewrite ltnNge Mb.
have [r [E ltab lty]] : exists r, [/\ ext V r, r a < r b & {in [set y in V | u y a], forall y, y != b -> r y < r b}].
  apply: rotate => //; apply: IH; [exact: cardD | | exact: QPclique | by exists r0; exact: ext_sub].
  by apply/subsetP=> q; apply: QinV.
have [y yV My] := last_node r NV; have Py := last_psink E yV My; have yQ := sinkQ _ Py.
have [_ O _] := E.
have ya : y != a by apply: contraTneq ltab => <-; rewrite -leqNgt My.
have := CQ _ _ yQ aQ ya; rewrite /ad Hout //= => /orP [dya|uya].
  by have := O _ _ yV Ha dya; rewrite ltnNge My.
have := lty y; rewrite inE yV uya => /(_ isT); rewrite ltnNge My // => H.
by have : false by apply: H; apply: contraNneq bQ => <-.
Qed.

Theorem meek_complete r a b : ext setT r -> u a b -> exists r', ext setT r' /\ r' a < r' b.
Proof.
move=> E uab; have [|||r' [E' H]] := @weak_all _ setT [set a] (leqnn _).
- exact: subsetT.
- by move=> x y; rewrite !inE => /eqP -> /eqP ->; rewrite eqxx.
- by exists r.
exists r'; split=> //; rewrite (ext_flip E') ?inE // ?u_ad //; apply/negP=> lt.
have ba : b != a by rewrite eq_sym ad_neq // u_ad.
have uba : u b a by rewrite usym.
have bn : b \notin [set a] by rewrite in_set1.
have [q] := H b a (in_setT b) bn (set11 a) (u_ad uba) lt.
by rewrite in_set1 => /eqP ->; rewrite ud.
Qed.
End Meek.

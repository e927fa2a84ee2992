(** Lemmas on which draws the parameters depend on. *)
From Coq Require Import ZArith Lia.
From mathcomp Require Import all_ssreflect all_algebra.
From Verif Require Import Base GraphModel GraphSpec TopoProofs NumModel NumSpec NumProofs GenModel GenSpec GenProofs DrawSpec.
Set Implicit Arguments.
Unset Strict Implicit.
Unset Printing Implicit Defensive.
Import GRing.Theory.
Local Open Scope nat_scope.
Local Open Scope ring_scope.

Lemma cell_inj c i j i' j' : (j < c)%N -> (j' < c)%N -> (i * c + j = i' * c + j')%N -> i = i' /\ j = j'.
Proof.
move=> Hj Hj' E; have Hc : (0 < c)%N by apply: leq_ltn_trans Hj.
have := congr1 (fun x => x %/ c)%N E; have := congr1 (fun x => x %% c)%N E.
by rewrite !modnMDl !modn_small // !divnMDl // !divn_small // !addn0.
Qed.

Lemma cell_lt r c i j : (i < r)%N -> (j < c)%N -> (i * c + j < r * c)%N.
Proof.
move=> Hi Hj; apply: (@leq_trans (i * c + c)%N); first by rewrite ltn_add2l.
by rewrite addnC -mulSn leq_mul2r Hi orbT.
Qed.

Section Draw.
Variables (F : realFieldType) (h : hord) (p l e : nat) (A : mat) (I : seq nat) (b : bounds F).

(** The draws that x depends on *)
Definition tick (x : param p l e) (n : nat) : Prop :=
  match x with
  | PB i j => n = (i * p + j)%N
  | PG a j => n = (p * p + (a * p + j))%N
  | PO k j => if nat_of_ord j \in I then n = (p * p + l * p + (k * p + j))%N
              else exists2 k' : 'I_e, True & n = (p * p + l * p + (k' * p + j))%N
  | PP k a => n = (p * p + l * p + e * p + (k * l + a))%N
  end.

Lemma tick_tied x y n : tick x n -> tick y n -> tied I x y.
Proof.
have L1 (i j : 'I_p) : (i * p + j < p * p)%N by apply: cell_lt.
have L2 (a : 'I_l) (j : 'I_p) : (a * p + j < l * p)%N by apply: cell_lt.
have L3 (k : 'I_e) (j : 'I_p) : (k * p + j < e * p)%N by apply: cell_lt.
have O k j : tick (PO l k j) n -> exists k' : 'I_e, n = (p * p + l * p + (k' * p + j))%N /\ (nat_of_ord j \in I -> k' = k).
  by rewrite /=; case: ifP => HI; [move=> ->; exists k | case=> k' _ ->; exists k'].
case: x => [i j|a j|k j|k a] Hx; case: y => [i' j'|a' j'|k' j'|k' a'] Hy.
- have [E1 E2] := cell_inj (ltn_ord j) (ltn_ord j') (etrans (esym Hx) Hy).
  by left; rewrite (ord_inj E1) (ord_inj E2).
- by move: (L1 i j) Hx Hy => /= + ->; slia.
- by have [q [E _]] := O _ _ Hy; move: (L1 i j) Hx E => /= + ->; slia.
- by move: (L1 i j) Hx Hy => /= + ->; slia.
- by move: (L1 i' j') Hx Hy => /= + ->; slia.
- have /addnI E := etrans (esym Hx) Hy; have [E1 E2] := cell_inj (ltn_ord j) (ltn_ord j') E.
  by left; rewrite (ord_inj E1) (ord_inj E2).
- by have [q [E _]] := O _ _ Hy; move: (L2 a j) Hx E => /= + ->; slia.
- by move: (L2 a j) Hx Hy => /= + ->; slia.
- by have [q [E _]] := O _ _ Hx; move: (L1 i' j') Hy E => /= + ->; slia.
- by have [q [E _]] := O _ _ Hx; move: (L2 a' j') Hy E => /= + ->; slia.
- have [q [E Eq]] := O _ _ Hx; have [q' [E' Eq']] := O _ _ Hy.
  have /addnI EE := etrans (esym E) E'; have [E1 E2] := cell_inj (ltn_ord j) (ltn_ord j') EE.
  have Ej := ord_inj E2; subst j'; case: (boolP (nat_of_ord j \in I)) => HI; last by right; exists k, k', j.
  by left; rewrite -(Eq HI) -(Eq' HI) (ord_inj E1).
- by have [q [E _]] := O _ _ Hx; move: (L3 q j) Hy E => /= + ->; slia.
- by move: (L1 i' j') Hx Hy => /= + ->; slia.
- by move: (L2 a' j') Hx Hy => /= + ->; slia.
- by have [q [E _]] := O _ _ Hy; move: (L3 q j') Hx E => /= + ->; slia.
- have /addnI E := etrans (esym Hx) Hy; have [E1 E2] := cell_inj (ltn_ord a) (ltn_ord a') E.
  by left; rewrite (ord_inj E1) (ord_inj E2).
Qed.

(** The parameters of the model in terms of the draws *)
Lemma value_draws u z rs x : value (result h (stream_gen u z) p l e A I b false false rs) x =
  match x with
  | PB i j => ZF F (get A i j) * (B_lo b + (B_hi b - B_lo b) * u (i * p + j)%N)
  | PG a j => z (p * p + (a * p + j))%N
  | PO k j => let o k := var_lo b + (var_hi b - var_lo b) * u (p * p + l * p + (k * p + j))%N in
              if nat_of_ord j \in I then o k else (\sum_(k' < e) o k') / e%:R
  | PP k a => psi_lo b + (psi_hi b - psi_lo b) * u (p * p + l * p + e * p + (k * l + a))%N
  end.
Proof.
case: x => [i j|a j|k j|k a]; rewrite /value [LHS]mxE //=.
by rewrite add0n mean_loop ?iota_uniq // mem_iota add0n ltn_ord /=; case: (nat_of_ord j \in I).
Qed.

Lemma value_same n u z u' z' rs rs' x : same_but n u u' -> same_but n z z' -> ~ tick x n ->
  value (result h (stream_gen u z) p l e A I b false false rs) x =
  value (result h (stream_gen u' z') p l e A I b false false rs') x.
Proof.
move=> Hu Hz Hx; rewrite !value_draws; case: x Hx => [i j|a j|k j|k a] /= Hx.
- by rewrite Hu // => E; apply: Hx.
- by rewrite Hz // => E; apply: Hx.
- case: ifP Hx => _ Hx; first by rewrite Hu // => E; apply: Hx.
  by congr (_ / _); apply: eq_bigr => q _; rewrite Hu // => E; apply: Hx; exists q.
- by rewrite Hu // => E; apply: Hx.
Qed.
End Draw.

Lemma draws_once (F : realFieldType) (h : hord) p l e A I (b : bounds F) u z u' z' n rs rs' (m m' : model F p l e) :
  square p A -> nonneg A ->
  sample_parameters h (stream_gen u z) p l e A I b false false rs false = Ok m ->
  sample_parameters h (stream_gen u' z') p l e A I b false false rs' false = Ok m' ->
  same_but n u u' -> same_but n z z' ->
  forall x y : param p l e, value m x <> value m' x -> ~ tied I x y -> value m y = value m' y.
Proof.
move=> SA NA E E' Hu Hz x y Hx Hxy.
have V : false -> (0 < e)%N /\ (0 < p)%N by [].
have [[_ [_ R]]|[_ R]] := sample_parameters_result h (stream_gen u z) l I b false false rs SA NA V; move: R; rewrite E // => -[Em].
have [[_ [_ R]]|[_ R]] := sample_parameters_result h (stream_gen u' z') l I b false false rs' SA NA V; move: R; rewrite E' // => -[Em'].
move: Hx; rewrite Em Em' => Hx; apply: (@value_same _ _ _ _ _ _ _ _ n) => // Ty.
by apply: Hx; apply: (@value_same _ _ _ _ _ _ _ _ n) => // Tx; apply: Hxy; apply: tick_tied Tx Ty.
Qed.

(** * With an observational environment *)
Section Columns.
Variables (F : realFieldType) (h : hord) (p l e : nat) (I : seq nat) (b : bounds F).
Variables (n : nat) (u z u' z' : nat -> F).
Hypotheses (Hu : same_but n u u') (Hz : same_but n z z').
Local Notation g := (stream_gen u z).
Local Notation g' := (stream_gen u' z').

(** The draws for the targets s, after t draws *)
Definition om_dep (t : nat) (s : seq nat) (c m : nat) : Prop :=
  m = (t + c)%N \/ c \in s /\ exists2 d, (d < e - 1)%N & m = (t + p + (index c s * (e - 1) + d))%N.

Lemma om_rel t t' s (w w' : nat -> F) : t' = (t + p)%N -> uniq s -> (forall c, c <> (n - t)%N \/ (n < t)%N -> w c = w' c) ->
  let r := foldl (@om_step F g b e) ((fun _ _ => 0, fun _ c => w c), t') s in
  let r' := foldl (@om_step F g' b e) ((fun _ _ => 0, fun _ c => w' c), t') s in
  [/\ r.2 = (t + p + size s * (e - 1))%N, r'.2 = (t + p + size s * (e - 1))%N &
  forall a c, (a < e)%N -> ~ om_dep t s c n -> r.1.1 a c = r'.1.1 a c /\ r.1.2 a c = r'.1.2 a c].
Proof.
move=> -> U W; cbv zeta; elim/last_ind: s U => [|s j IH] U.
  split; rewrite //= ?mul0n ?addn0 // => a c _ H; split=> //; apply: W.
  case: (ltnP n t) => Hn; [by right | left => E; apply: H; left; slia].
move: U; rewrite rcons_uniq => /andP [Nj U]; have [] := IH U; rewrite !foldl_rcons.
set r := foldl _ _ s; set r' := foldl _ _ s => R R' E; rewrite /om_step /=; rewrite R R' size_rcons.
split; rewrite ?mul1n ?mulSn; [by rewrite [(e - 1 + _)%N]addnC addnA.. |] => a c Ha H.
have {E} [|E1 E2] := E a c Ha.
  case=> [E|[Hc [d Hd E]]]; first by apply: H; left.
  by apply: H; right; split; [rewrite mem_rcons inE Hc orbT | exists d; rewrite // -cats1 index_cat Hc].
have D : (0 < a)%N -> c = j -> u (t + p + size s * (e - 1) + (a - 1))%N = u' (t + p + size s * (e - 1) + (a - 1))%N.
  move=> a0 Ec; apply: Hu => En; apply: H; right; split; first by rewrite mem_rcons inE Ec eqxx.
  exists (a - 1)%N; first by slia.
  by rewrite -cats1 index_cat Ec (negPf Nj) /= eqxx addn0 -En addnA.
have X : (if (0 < a)%N && (c == j) then int_var_lo b + (int_var_hi b - int_var_lo b) * u (t + p + size s * (e - 1) + (a - 1))%N else r.1.1 a c) =
         (if (0 < a)%N && (c == j) then int_var_lo b + (int_var_hi b - int_var_lo b) * u' (t + p + size s * (e - 1) + (a - 1))%N else r'.1.1 a c).
  by case: (ltnP 0 a) => a0 //=; case: (eqVneq c j) => Ec //=; rewrite D.
by rewrite ?mul0n ?add0n X E2.
Qed.

Lemma psi_rel t t' m (w w' : nat -> F) : t' = (t + l)%N -> (forall c, (c < l)%N -> c <> (n - t)%N \/ (n < t)%N -> w c = w' c) ->
  let r := foldl (@psi_step F g b e l) (fun a c => if a == 0%N then w c else 0, t') (iota 1 m) in
  let r' := foldl (@psi_step F g' b e l) (fun a c => if a == 0%N then w' c else 0, t') (iota 1 m) in
  [/\ r.2 = (t + l + m * (e * l))%N, r'.2 = (t + l + m * (e * l))%N &
  forall a c, (c < l)%N -> ~ ((t <= n)%N /\ ((n - t) %% l)%N = c) -> r.1 a c = r'.1 a c].
Proof.
move=> -> W; cbv zeta; elim: m => [|m [R R' E]].
  split; rewrite /= ?mul0n ?addn0 // => a c Hc H; case: eqP => // _; apply: W => //.
  by case: (ltnP n t) => Hn; [right | left => Ec; apply: H; split=> //; rewrite -Ec modn_small].
have -> : iota 1 m.+1 = rcons (iota 1 m) m.+1 by rewrite -{1}[m.+1]addn1 iotaD cats1 add1n.
rewrite !foldl_rcons; move: R R' E; set r := foldl _ _ _; set r' := foldl _ _ _ => R R' E.
rewrite /psi_step /= R R'; split; [by rewrite mulSn [(e * l + _)%N]addnC addnA.. |] => a c Hc H.
have D : u (t + l + m * (e * l) + (a * l + c))%N = u' (t + l + m * (e * l) + (a * l + c))%N.
  apply: Hu => En; apply: H; rewrite -En; split; first by rewrite -!addnA leq_addr.
  rewrite -!addnA addKn (_ : l + _ = (1 + m * e + a) * l + c)%N ?modnMDl ?modn_small //.
  by rewrite !mulnDl mul1n !mulnA !addnA.
by rewrite D !E.
Qed.

Variables (A : mat) (obs : bool).
Let oo := obs && (1 < e)%N.
Let t0 := (p * p + l * p)%N.
Let t1 := if oo then (t0 + p + size (h 0%N I) * (e - 1))%N else (t0 + e * p)%N.

(** The draws that the column of x depends on *)
Definition ctick (x : param p l e) : Prop :=
  match x with
  | PB i j => n = (i * p + j)%N
  | PG a j => n = (p * p + (a * p + j))%N
  | PO k j => if oo then om_dep t0 (h 0%N I) j n else [/\ (t0 <= n)%N, (n < t1)%N & ((n - t0) %% p)%N = j]
  | PP k a => (t1 <= n)%N /\ ((n - t1) %% l)%N = a
  end.

Lemma om_bounds (j : 'I_p) : oo -> om_dep t0 (h 0%N I) j n -> (t0 <= n < t1)%N.
Proof.
move=> O; rewrite /t1 O => -[->|[Hj [d Hd ->]]]; first by have := ltn_ord j; slia.
have L : (index (nat_of_ord j) (h 0%N I) * (e - 1) + d < size (h 0%N I) * (e - 1))%N by apply: cell_lt; rewrite ?index_mem.
by move: L; set A1 := (_ * _ + _)%N; set A2 := (_ * _)%N; slia.
Qed.

Lemma ctick_bounds x : ctick x ->
  match x with
  | PB _ _ => (n < p * p)%N
  | PG _ _ => (p * p <= n < t0)%N
  | PO _ _ => (t0 <= n < t1)%N
  | PP _ _ => (t1 <= n)%N
  end.
Proof.
case: x => [i j|a j|k j|k a] /=.
- by move=> ->; apply: cell_lt.
- by move=> ->; rewrite leq_addr /t0 ltn_add2l cell_lt.
- by case: ifP => O; [apply: om_bounds | case=> -> ->].
- by case.
Qed.

Lemma t01 : (t0 <= t1)%N.
Proof. by rewrite /t1; case: ifP => _; [rewrite -(addnA t0)|]; apply: leq_addr. Qed.

Lemma ctick_column x y : ctick x -> ctick y -> same_column x y.
Proof.
move=> Hx Hy; have Bx := ctick_bounds Hx; have By := ctick_bounds Hy; have L := t01; have L0 : (p * p <= t0)%N by rewrite leq_addr.
clearbody t1.
case: x Hx Bx => [i j|a j|k j|k a] Hx Bx; case: y Hy By => [i' j'|a' j'|k' j'|k' a'] Hy By; try (exfalso; slia).
- have [E1 E2] := cell_inj (ltn_ord j) (ltn_ord j') (etrans (esym Hx) Hy).
  by rewrite /= (ord_inj E1) (ord_inj E2).
- have /addnI E := etrans (esym Hx) Hy; have [E1 E2] := cell_inj (ltn_ord j) (ltn_ord j') E.
  by rewrite /= (ord_inj E1) (ord_inj E2).
- apply: ord_inj; move: Hx Hy; rewrite /=; case: ifP => _; last by case=> _ _ <- [_ _ <-].
  case=> [E|[Hj [d Hd E]]] [E'|[Hj' [d' Hd' E']]].
  + by move: E; rewrite E' => /addnI.
  + by move: (ltn_ord j) E'; rewrite E; slia.
  + by move: (ltn_ord j') E; rewrite E'; slia.
  + move: E; rewrite E' => /addnI /cell_inj [] // E _.
    by rewrite -(nth_index 0%N Hj) -(nth_index 0%N Hj') E.
- by apply: ord_inj; move: Hx Hy => /= [_ <-] [_ <-].
Qed.

Lemma omegas_st (w z0 : nat -> F) : (sample_omegas (g:=stream_gen w z0) h obs e p I b t0).2 = t1.
Proof.
rewrite /sample_omegas -/oo /t1; case: (oo) => //=.
elim/last_ind: (h 0%N I) => [|s j IH]; first by rewrite /= mul1n mul0n addn0.
by rewrite foldl_rcons /= IH size_rcons mul1n mulSn [(e - 1 + _)%N]addnC addnA.
Qed.

Lemma column_same rs rs' x : List.NoDup I -> ~ ctick x ->
  value (result h g p l e A I b false obs rs) x = value (result h g' p l e A I b false obs rs') x.
Proof.
move=> N; case: x => [i j|a j|k j|k a] Hx; rewrite /value [LHS]mxE [RHS]mxE.
- by rewrite /= !add0n Hu // => E; apply: Hx.
- by rewrite /= !add0n Hz // => E; apply: Hx.
- rewrite [_.2]/= add0n -/t0 [X in _ = (sample_omegas _ _ _ _ _ _ X).1 _ _]/= add0n -/t0.
  move: Hx; rewrite /sample_omegas -/oo /=; case: (boolP oo) => O Hx.
    have := @om_rel t0 (t0 + 1 * p)%N (h 0%N I) (fun c => var_lo b + (var_hi b - var_lo b) * u (t0 + c)%N)
      (fun c => var_lo b + (var_hi b - var_lo b) * u' (t0 + c)%N) _ (hI_uniq h N).
    case=> [|c Hc|_ _ E]; first by rewrite mul1n.
      by rewrite Hu // => En; case: Hc; slia.
    by have [_] := E k j (ltn_ord k) Hx.
  have Eu (q : 'I_e) : u (t0 + (q * p + j))%N = u' (t0 + (q * p + j))%N.
    apply: Hu => En; apply: Hx; rewrite -En addKn modnMDl modn_small // leq_addr; split=> //.
    by rewrite /t1 (negPf O) ltn_add2l cell_lt.
  rewrite /= !mean_loop ?iota_uniq //; case: ifP => _; last by rewrite Eu.
  by congr (_ / _); apply: eq_bigr => q _; rewrite Eu.
- have Hl : (0 < l)%N by apply: leq_ltn_trans (ltn_ord a).
  rewrite [(sample_gamma _ _ _ _).2]/= add0n -/t0 [X in _ = (sample_psis _ _ _ _ (sample_omegas _ _ _ _ _ _ X).2).1 _ _]/= add0n -/t0.
  rewrite !omegas_st /sample_psis Hl andbT -/oo; move: Hx; rewrite /ctick /=; case: (oo) => /= Hx.
    have := @psi_rel t1 (t1 + 1 * l)%N (e - 1) (fun c => psi_lo b + (psi_hi b - psi_lo b) * u (t1 + c)%N)
      (fun c => psi_lo b + (psi_hi b - psi_lo b) * u' (t1 + c)%N).
    case=> [|c Hc En|_ _ E]; first by rewrite mul1n.
      by rewrite Hu // => En'; case: En; slia.
    exact: E.
  by rewrite Hu // => En; apply: Hx; rewrite -En addKn modnMDl modn_small // leq_addr.
Qed.
End Columns.

Lemma draws_columns (F : realFieldType) (h : hord) p l e A I (b : bounds F) obs u z u' z' n rs rs' (m m' : model F p l e) :
  square p A -> nonneg A -> List.NoDup I ->
  sample_parameters h (stream_gen u z) p l e A I b false obs rs false = Ok m ->
  sample_parameters h (stream_gen u' z') p l e A I b false obs rs' false = Ok m' ->
  same_but n u u' -> same_but n z z' ->
  forall x y : param p l e, value m x <> value m' x -> ~ same_column x y -> value m y = value m' y.
Proof.
move=> SA NA NI E E' Hu Hz x y Hx Hxy.
have V : false -> (0 < e)%N /\ (0 < p)%N by [].
have [[_ [_ R]]|[_ R]] := sample_parameters_result h (stream_gen u z) l I b false obs rs SA NA V; move: R; rewrite E // => -[Em].
have [[_ [_ R]]|[_ R]] := sample_parameters_result h (stream_gen u' z') l I b false obs rs' SA NA V; move: R; rewrite E' // => -[Em'].
move: Hx; rewrite Em Em' => Hx; apply: (@column_same F h p l e I b n u z u' z' Hu Hz A obs rs rs' y NI) => Ty.
by apply: Hx; apply: (@column_same F h p l e I b n u z u' z' Hu Hz A obs rs rs' x NI) => Tx; apply: Hxy; apply: ctick_column Tx Ty.
Qed.

(** Lemmas on sample_parameters. *)
From Coq Require Import ZArith Lia.
From mathcomp Require Import all_ssreflect all_algebra.
From Verif Require Import Base GraphModel GraphSpec TopoProofs NumModel NumSpec LinAlgProofs NumProofs GenModel GenSpec.
Set Implicit Arguments.
Unset Strict Implicit.
Unset Printing Implicit Defensive.
Import Order.Theory GRing.Theory Num.Theory.
Local Open Scope nat_scope.
Local Open Scope ring_scope.

(** lia on the natural numbers of mathcomp *)
Ltac slia :=
  repeat match goal with
  | |- _ -> _ => intro
  | H : is_true (andb _ _) |- _ => move/andP: H; case; intros
  | H : is_true (leq _ _) |- _ => apply (elimT ssrnat.leP) in H
  | H : is_true (~~ (leq _ _)) |- _ => rewrite -ltnNge in H
  | H : is_true (@eq_op nat_eqType _ _) |- _ => apply (elimT eqP) in H
  | H : is_true (~~ (@eq_op nat_eqType _ _)) |- _ => apply (elimN eqP) in H
  | |- is_true (andb _ _) => apply/andP; split
  | |- is_true (leq _ _) => apply/ssrnat.leP
  | |- is_true (@eq_op nat_eqType _ _) => apply/eqP
  | |- is_true (~~ (@eq_op nat_eqType _ _)) => apply/eqP
  | H : context [addn ?a ?b] |- _ => change (addn a b) with (Nat.add a b) in H
  | H : context [subn ?a ?b] |- _ => change (subn a b) with (Nat.sub a b) in H
  | |- context [addn ?a ?b] => change (addn a b) with (Nat.add a b)
  | |- context [subn ?a ?b] => change (subn a b) with (Nat.sub a b)
  end; lia.

Lemma In_mem (x : nat) s : List.In x s <-> x \in s.
Proof.
elim: s => [|y s IH] //=; rewrite inE; split.
  by case=> [->|/IH ->]; rewrite ?eqxx ?orbT.
by case/orP => [/eqP ->|/IH]; [left|right].
Qed.

Lemma subsetb_iota I n : subsetb I (iota 0 n) <-> forall j, List.In j I -> (j < n)%N.
Proof.
rewrite -[is_true (subsetb _ _)]/(subsetb I (iota 0 n) = true) subsetb_incl; split=> H j Hj.
  by have /In_mem := H j Hj; rewrite mem_iota add0n.
by apply/In_mem; rewrite mem_iota add0n; apply: H.
Qed.

Section GenProofs.
Variables (F : realFieldType) (h : hord) (g : generator F).
Local Notation arr := (nat -> nat -> F).

Lemma within_add (lo hi lo' hi' x y : F) : within lo hi x -> within lo' hi' y -> within (lo + lo') (hi + hi') (x + y).
Proof. by case=> a b [c d]; split; apply: ler_add. Qed.

Lemma within_muln (lo hi x : F) n : within lo hi x -> within (lo *+ n) (hi *+ n) (x *+ n).
Proof. by case=> a b; split; apply: ler_wmuln2r. Qed.

Lemma within_uniform st lo hi r c i j : fair g -> lo <= hi -> (i < r)%N -> (j < c)%N ->
  within lo hi ((@g_uniform F g st lo hi r c).1 i j).
Proof. by move=> Hg H1 H2 H3; have /andP [] := fair_uniform Hg st H1 H2 H3. Qed.

Lemma within_mean n (f : nat -> F) lo hi : (0 < n)%N -> (forall k, (k < n)%N -> within lo hi (f k)) ->
  within lo hi ((\sum_(k < n) f k) / n%:R).
Proof.
move=> Hn H; have n0 : 0 < n%:R :> F by rewrite ltr0n.
split; [rewrite ler_pdivl_mulr //|rewrite ler_pdivr_mulr //].
  have -> : lo * n%:R = \sum_(k < n) lo by rewrite sumr_const card_ord mulr_natr.
  by apply: ler_sum => k _; case: (H k (ltn_ord k)).
have -> : hi * n%:R = \sum_(k < n) hi by rewrite sumr_const card_ord mulr_natr.
by apply: ler_sum => k _; case: (H k (ltn_ord k)).
Qed.

(** The loop over the targets *)
Definition om_step (b : bounds F) e (s : (arr * arr) * gst g) (j : nat) : (arr * arr) * gst g :=
  let d := g_uniform s.2 (int_var_lo b) (int_var_hi b) 1 (e - 1) in
  let ints : arr := fun a c => if (0 < a)%N && (c == j) then d.1 0%N (a - 1)%N else s.1.1 a c in
  ((ints, fun a c => s.1.2 a c + ints a c), d.2).

Lemma om_loop b e (u : nat -> F) st s : uniq s ->
  let r := foldl (om_step b e) ((fun _ _ => 0, fun _ c => u c), st) s in
  forall a c,
  ((c \notin s) || (a == 0%N) -> r.1.1 a c = 0 /\ r.1.2 a c = u c) /\
  (c \in s -> (0 < a)%N -> r.1.2 a c = u c + r.1.1 a c *+ (size s - index c s)) /\
  (fair g -> int_var_lo b <= int_var_hi b -> c \in s -> (0 < a < e)%N -> within (int_var_lo b) (int_var_hi b) (r.1.1 a c)).
Proof.
elim/last_ind: s => [|s j IH] /= U a c; first by [].
move: U; rewrite rcons_uniq => /andP [Nj U]; have {IH} := IH U; set r0 := foldl _ _ s => IH.
rewrite foldl_rcons -/r0 /om_step; set d := g_uniform _ _ _ _ _ => /=.
have [I1 [I2 I3]] := IH a c; rewrite mem_rcons inE size_rcons.
have [Ec|Nc] := eqVneq c j.
  subst c; rewrite /= andbT; split; [|split].
  - by move=> /eqP ->; rewrite ltnn; have [//|-> ->] := (IH 0%N j).1; rewrite ?orbT ?addr0.
  - move=> _ a0; rewrite a0; have [|_ ->] := I1; first by rewrite Nj.
    by rewrite -cats1 index_cat (negPf Nj) /= eqxx addn0 subSn // subnn.
  - by move=> Hg Hb _ /andP [a0 ae]; rewrite a0; apply: within_uniform => //; slia.
rewrite andbF /=; split; [|split].
- by move=> H; have [-> ->] := I1 H; rewrite addr0.
- move=> Hc a0; rewrite I2 // -cats1 index_cat Hc -addrA; congr (_ + _).
  by rewrite subSn ?mulrSr // ltnW // index_mem.
- by move=> Hg Hb Hc Ha; apply: I3.
Qed.

(** The columns replaced by their means *)
Lemma mean_loop e (I : seq nat) (u : arr) s : uniq s ->
  forall a c, foldl (fun (om : arr) j => if j \in I then om
                                else fun a c => if c == j then (\sum_(k < e) om k j) / e%:R else om a c) u s a c =
  if (c \in s) && (c \notin I) then (\sum_(k < e) u k c) / e%:R else u a c.
Proof.
elim/last_ind: s => [|s j IH] //= U a c.
move: U; rewrite rcons_uniq => /andP [Nj U]; rewrite foldl_rcons; set om := foldl _ _ _.
have {}IH : forall a c, om a c = _ := IH U.
rewrite mem_rcons inE; case: ifP => HI.
  by rewrite IH; have [->|//] := eqVneq c j; rewrite HI !andbF.
have [->|Nc] := eqVneq c j; rewrite ?IH //= HI /=; congr (_ / _).
by apply: eq_bigr => k _; rewrite IH (negPf Nj).
Qed.

(** The loop over the environments *)
Definition psi_step (b : bounds F) e l (s : arr * gst g) (k : nat) : arr * gst g :=
  let d := g_uniform s.2 (int_psi_lo b) (int_psi_hi b) e l in
  (fun a c => (if a == k then s.1 0%N c else s.1 a c) + (if a == 0%N then 0 else d.1 a c), d.2).

Lemma psi_loop b e l (u : nat -> F) st n : (n < e)%N ->
  let r := foldl (psi_step b e l) (fun a c => if a == 0%N then u c else 0, st) (iota 1 n) in
  (forall c, r.1 0%N c = u c) /\
  (fair g -> int_psi_lo b <= int_psi_hi b -> forall a c, (0 < a <= n)%N -> (c < l)%N ->
   within (int_psi_lo b *+ (n.+1 - a)) (int_psi_hi b *+ (n.+1 - a)) (r.1 a c - u c)).
Proof.
elim: n => [|n IH] Hn; cbv zeta; first by split=> // _ _ a c; slia.
have := IH (ltnW Hn); cbv zeta => -[I1 I2] {IH}.
have -> : iota 1 n.+1 = rcons (iota 1 n) n.+1 by rewrite -{1}[n.+1]addn1 iotaD cats1 add1n.
rewrite foldl_rcons; move: I1 I2; set r := foldl _ _ _ => I1 I2.
rewrite /psi_step; set d := g_uniform _ _ _ _ _ => /=; split; first by move=> c; rewrite addr0.
move=> Hg Hb a c /andP [a0 an] cl.
have Wd : within (int_psi_lo b) (int_psi_hi b) (d.1 a c) by apply: within_uniform => //; slia.
rewrite (_ : (a == 0%N) = false); last by apply/eqP; slia.
case: (eqVneq a n.+1) Wd => [->|Na] Wd; first by rewrite I1 [u c + _]addrC addrK subSn // subnn !mulr1n.
have -> : r.1 a c + d.1 a c - u c = (r.1 a c - u c) + d.1 a c by rewrite -!addrA; congr (_ + _); rewrite addrC.
rewrite subSn; last by slia.
by rewrite !mulrSr; apply: within_add => //; apply: I2 => //; move/eqP: Na; slia.
Qed.

(** * The result *)
Section Result.
Variables (p l e : nat) (A : mat) (I : seq nat) (b : bounds F) (sparse obs : bool) (rs : Z).

Let u := g_uniform (g_seed g rs) (B_lo b) (B_hi b) p p.
Let gm := sample_gamma sparse l p u.2.
Let om := sample_omegas h obs e p I b gm.2.
Let ps := sample_psis obs e l b om.2.
Let B : 'M[F]_p := to_matrix p p (fun i j => ZF F (get A i j) * u.1 i j).
Definition result : model F p l e :=
  MkModel A B (to_matrix l p gm.1) (to_matrix e p om.1) (to_matrix e l ps.1) (1%:M - B^T).

Lemma B_supported : supported A B.
Proof. by move=> i j; rewrite mxE; case E: (get A i j) => [|z|z]; rewrite ?mul0r ?eqxx // /edge E. Qed.

Lemma hI_In j : (j \in h 0%N I) <-> List.In j I.
Proof. by rewrite -In_mem ho_In. Qed.

Lemma NoDup_uniq (s : seq nat) : List.NoDup s -> uniq s.
Proof. by elim=> //= x t N _ ->; rewrite andbT; apply/negP => /In_mem. Qed.

Lemma hI_uniq : List.NoDup I -> uniq (h 0%N I).
Proof. by move=> N; apply: NoDup_uniq; apply: ho_NoDup. Qed.

Lemma omegas_const (j : 'I_p) : List.NoDup I -> ~ List.In (nat_of_ord j) I -> const_col (momegas result) j.
Proof.
move=> N Hj i i'; rewrite !mxE /om /sample_omegas; case: ifP => _ /=; last first.
  rewrite !mean_loop ?iota_uniq //.
  have -> : nat_of_ord j \notin I by apply/negP => /In_mem.
  by rewrite mem_iota add0n ltn_ord.
set w := g_uniform _ _ _ _ _; have NH : nat_of_ord j \notin h 0%N I by apply/negP => /hI_In.
have H := om_loop b e (w.1 0%N) w.2 (hI_uniq N); cbv zeta in H; rewrite /om_step in H.
by have [|_ ->] := (H i j).1; rewrite ?NH //; have [|_ ->] := (H i' j).1; rewrite ?NH.
Qed.

(** sample_parameters returns it *)
Lemma sample_parameters_result (verbose : bool) : square p A -> nonneg A -> (verbose -> (0 < e)%N /\ (0 < p)%N) ->
  (acyclic A /\ (forall j, List.In j I -> (j < p)%N) /\
   sample_parameters h g p l e A I b sparse obs rs verbose = Ok result) \/
  (~ (acyclic A /\ (forall j, List.In j I -> (j < p)%N)) /\
   sample_parameters h g p l e A I b sparse obs rs verbose = Err ValueError).
Proof.
move=> SA NA Hv; rewrite /sample_parameters; have [d [-> Hd]] := is_dag_spec h p A SA NA.
case: d Hd => /= Hd; last by right; split=> // -[/Hd].
have CA : acyclic A by apply/Hd.
rewrite (square_length SA).
have [HI|HI] := boolP (subsetb I (iota 0 p)); last by right; split=> // -[_ /subsetb_iota]; rewrite (negPf HI).
left; split=> //; split; first by apply/subsetb_iota.
rewrite /=; have [[_ [_ ->]]|[]] := new_model_spec h B (to_matrix l p gm.1) (to_matrix e p om.1) (to_matrix e l ps.1) SA NA.
  by case: verbose Hv => //= /(_ isT) [He Hp]; rewrite (negPf (lt0n_neq0 He)) (negPf (lt0n_neq0 Hp)).
by case; split=> //; apply: B_supported.
Qed.

(** * The ranges *)
Lemma B_range (i j : 'I_p) : fair g -> ordered b -> get A i j = Zpos xH -> within (B_lo b) (B_hi b) (mB result i j).
Proof. by move=> Hg [_ _ _ _ Hb] HA; rewrite mxE HA mul1r; apply: within_uniform. Qed.

Lemma omegas_obs : fair g -> ordered b -> List.NoDup I -> obs -> (1 < e)%N ->
  exists rank : nat -> nat,
    (forall j, List.In j I -> (0 < rank j <= size I)%N) /\
    (forall j k, List.In j I -> List.In k I -> rank j = rank k -> j = k) /\
    forall (i : 'I_e) (j : 'I_p),
      ((i == 0%N :> nat) || (nat_of_ord j \notin I) -> within (var_lo b) (var_hi b) (momegas result i j)) /\
      ((0 < i)%N -> nat_of_ord j \in I ->
        within (var_lo b + int_var_lo b *+ rank j) (var_hi b + int_var_hi b *+ rank j) (momegas result i j)).
Proof.
move=> Hg [Hv Hiv _ _ _] N Ho He; set s := h 0%N I.
have Ss : size s = size I by rewrite /s; exact: ho_length.
exists (fun j => size s - index j s)%N; split; [|split].
- by move=> j /hI_In Hj; have := Hj; rewrite -index_mem -Ss => H; rewrite subn_gt0 H leq_subr.
- move=> j k /hI_In Hj /hI_In Hk E; rewrite -(nth_index 0%N Hj) -(nth_index 0%N Hk); congr nth.
  by move: (Hj) (Hk) E; rewrite -!index_mem /s /=; slia.
move=> i j; rewrite !mxE /om /sample_omegas Ho He /=.
set w := g_uniform _ _ _ _ _; have H := om_loop b e (w.1 0%N) w.2 (hI_uniq N).
cbv zeta in H; rewrite /om_step in H; have [H1 [H2 H3]] := H i j.
have W : within (var_lo b) (var_hi b) (w.1 0%N j) by apply: within_uniform.
have EI : (nat_of_ord j \in s) = (nat_of_ord j \in I).
  by apply/idP/idP => H0; [apply/In_mem/hI_In | apply/hI_In/In_mem].
split=> [Hc|i0 jI]; first by have [|_ ->] := H1; first by rewrite EI orbC.
rewrite H2 ?EI //; apply: within_add => //; apply: within_muln; apply: H3 => //; rewrite ?EI // i0 /=; exact: ltn_ord.
Qed.

Lemma omegas_other (i : 'I_e) (j : 'I_p) : fair g -> ordered b -> ~~ (obs && (1 < e)%N) ->
  within (var_lo b) (var_hi b) (momegas result i j).
Proof.
move=> Hg [Hv _ _ _ _] /negPf Ho; rewrite !mxE /om /sample_omegas Ho /=.
rewrite mean_loop ?iota_uniq //; case: ifP => _; last by apply: within_uniform.
set w := g_uniform _ _ _ _ _; apply: (@within_mean e (fun k => w.1 k j)) => [|k Hk]; last by apply: within_uniform.
by case: (e) i => // -[].
Qed.

Lemma psis_obs (i : 'I_e) (j : 'I_l) : fair g -> ordered b -> obs -> (1 < e)%N ->
  if i == 0%N :> nat then within (psi_lo b) (psi_hi b) (mpsis result i j)
  else within (psi_lo b + int_psi_lo b *+ (e - i)) (psi_hi b + int_psi_hi b *+ (e - i)) (mpsis result i j).
Proof.
move=> Hg [_ _ Hv Hiv _] Ho He; rewrite !mxE /ps /sample_psis Ho He.
have -> : (0 < l)%N by case: (l) j => // -[].
rewrite /=; set w := g_uniform _ _ _ _ _.
have e1 : (e - 1 < e)%N by slia.
have := psi_loop b l (w.1 0%N) w.2 e1; rewrite /psi_step; cbv zeta; set r := foldl _ _ _; case=> H1 H2.
have W : within (psi_lo b) (psi_hi b) (w.1 0%N j) by apply: within_uniform.
have [E|N] := eqVneq (nat_of_ord i) 0%N; first by rewrite E H1.
have -> : r.1 i j = w.1 0%N j + (r.1 i j - w.1 0%N j) by rewrite addrC subrK.
apply: within_add => //.
have Hi := ltn_ord i.
have := H2 Hg Hiv i j; rewrite (_ : (e - 1).+1 = e)%N; last by slia.
by apply=> //; slia.
Qed.

Lemma psis_other (i : 'I_e) (j : 'I_l) : fair g -> ordered b -> ~~ (obs && (1 < e)%N) ->
  within (psi_lo b) (psi_hi b) (mpsis result i j).
Proof.
move=> Hg [_ _ Hv _ _] /negPf Ho; rewrite !mxE /ps /sample_psis andbA Ho /=.
by apply: within_uniform.
Qed.
End Result.
End GenProofs.

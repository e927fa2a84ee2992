(** Without latent variables, DAGs that entail the same covariances are I-Markov equivalent. *)
From Coq Require Import ZArith List Permutation Lia.
From mathcomp Require Import all_ssreflect all_algebra.
From Verif Require Import Base GraphSpec NumSpec GradSpec OptSpec GraphModel NumModel TopoProofs SortProofs LinAlgProofs NumProofs GradProofs.
From Verif Require Import BasicProofs Max3Proofs EquivProofs ConsistProofs IdentSpec.
Set Implicit Arguments.
Unset Strict Implicit.
Unset Printing Implicit Defensive.
Import Order.Theory GRing.Theory Num.Theory.
Local Open Scope ring_scope.

Lemma acyclic_rank p D : square p D -> acyclic D ->
  exists rk : 'I_p -> nat, (forall a b : 'I_p, edge D a b -> (rk a < rk b)%N) /\ injective rk.
Proof.
move=> SD AD; have [l [HP HE]] := acyclic_topo p D SD AD.
have ND : NoDup l by apply: (Permutation_NoDup (Permutation_sym HP)); apply: seq_NoDup.
have Inl (i : 'I_p) : List.In (nat_of_ord i) l.
  by apply: (Permutation_in _ (Permutation_sym HP)); apply/in_seq; split; [lia | apply/ssrnat.ltP].
exists (fun i => pos l i); split=> [a b /HE /(precedes_pos _ _ _ ND) [_ [_ /ssrnat.ltP]]|a b E] //.
apply: val_inj => /=; case: (precedes_total l a b (Inl a) (Inl b)) => // -[] /(precedes_pos _ _ _ ND) [_ [_ H]]; lia.
Qed.

Section Normal.
Variables (F : realFieldType) (p e : nat) (A : mat) (B : 'M[F]_p) (g : 'M[F]_(0, p)) (o : 'M[F]_(e, p)) (s : 'M[F]_(e, 0)).
Hypotheses (HA : acyclic A) (HB : supported A B).
Variable rk : 'I_p -> nat.
Hypothesis Hrk : forall a b : 'I_p, edge A a b -> (rk a < rk b)%N.
Local Notation Q := (1%:M - B^T).
Local Notation L := (invmx (1%:M - B^T)).
Local Notation S := (entailed B g o s).

Let uQ : Q \in unitmx. Proof. by rewrite unitmxE (det_sub_dag HA HB) unitr1. Qed.

Lemma noise0 i : noise g o s i = diag_mx (row i o).
Proof.
apply/matrixP => u v; rewrite !mxE big_ord0 add0r; case: eqP => [->|_]; rewrite ?mulr1n ?mulr0n //.
Qed.

Lemma invL i j : L i j = (i == j)%:R + \sum_k B k i * L k j.
Proof.
have := congr1 (fun M : 'M[F]_p => M i j) (mulmxV uQ); rewrite mulmxBl mul1mx !mxE.
have -> : \sum_k B^T i k * L k j = \sum_k B k i * L k j by apply: eq_bigr => k _; rewrite mxE.
by move=> <-; rewrite subrK.
Qed.

Lemma invL0 i j : (rk i < rk j)%N -> L i j = 0.
Proof.
have [n] := ubnP (rk i); elim: n i => // n IH i lt ij; rewrite invL.
have /negbTE -> : i != j by apply: contraTneq ij => ->; rewrite ltnn.
rewrite add0r bigop.big1 // => k _; have [->|/HB /Hrk ki] := eqVneq (B k i) 0; first by rewrite mul0r.
by rewrite IH ?mulr0 //; [apply: leq_trans ki _ | apply: ltn_trans ij].
Qed.

Lemma normal i r y : (rk r < rk y)%N -> S i r y = \sum_k S i r k * B k y.
Proof.
move=> lt; have : (S i *m Q^T) r y = 0.
  rewrite /entailed -[_ *m _ *m _^T *m _^T]mulmxA -trmx_mul mulmxV // trmx1 mulmx1 noise0 mxE bigop.big1 // => k _.
  rewrite !mxE; case: (k =P y) => [->|_]; last by rewrite mulr0n mulr0.
  by rewrite invL0 ?mul0r.
rewrite linearB /= trmx1 trmxK mulmxBr mulmx1 mxE [X in _ + X]mxE => /eqP; rewrite subr_eq0 => /eqP ->.
by rewrite mxE.
Qed.

(** Coefficients of variables that are uncorrelated with all others *)
Lemma coef_alone i r y : (rk r < rk y)%N -> (forall k, k != r -> S i r k = 0) -> S i r r != 0 -> B r y = 0.
Proof.
move=> lt H0 H1; have ry : y != r by apply: contraTneq lt => ->; rewrite ltnn.
have := normal i lt; rewrite H0 // (bigD1 r) //= bigop.big1 ?addr0 => [/esym/eqP|k kr]; last by rewrite H0 ?mul0r.
by rewrite mulf_eq0 (negbTE H1) => /eqP.
Qed.

Lemma coef_late r y : (rk y <= rk r)%N -> B r y = 0.
Proof. by move=> le; apply: contraTeq le => /HB /Hrk; rewrite -ltnNge. Qed.

(** When y has at most the parent c *)
Lemma normal1 i c y : (forall r, r != c -> B r y = 0) -> forall r, (rk r < rk y)%N -> S i r y = S i r c * B c y.
Proof. by move=> H r /(normal i) ->; rewrite (bigD1 c) //= bigop.big1 ?addr0 // => k /H ->; rewrite mulr0. Qed.

(** Models in which effects do not add up along paths *)
Lemma entailed_short i u v : B *m B = 0 ->
  S i u v = (u == v)%:R * o i u + o i u * B u v + o i v * B v u + \sum_w o i w * B w u * B w v.
Proof.
move=> BB; have EL : L = 1%:M + B^T.
  have E : Q *m (1%:M + B^T) = 1%:M.
    by rewrite mulmxDr mulmx1 mulmxBl mul1mx -trmx_mul BB trmx0 subr0 subrK.
  by rewrite -[RHS](mulKmx uQ) E mulmx1.
rewrite /entailed EL noise0 linearD /= trmx1 trmxK !mulmxDl !mulmxDr !mul1mx !mulmx1 mxE [X in X + _ = _]mxE.
have E : (B^T *m diag_mx (row i o) *m B) u v = \sum_w o i w * B w u * B w v.
  by rewrite mxE; apply: eq_bigr => w _; rewrite mul_mx_diag !mxE [B _ _ * o _ _]mulrC.
rewrite [X in _ + X = _]mxE E mul_diag_mx mul_mx_diag !mxE.
by rewrite mulr_natl [B v u * _]mulrC !addrA; case: (u =P v) => [->|_]; rewrite ?mulr1n ?mulr0n.
Qed.
End Normal.

(** The covariances of a model in which effects do not add up along paths *)
Definition short (F : realFieldType) (p e : nat) (B : 'M[F]_p) (o : 'M[F]_(e, p)) (i : 'I_e) (u v : 'I_p) : F :=
  (u == v)%:R * o i u + o i u * B u v + o i v * B v u + \sum_w o i w * B w u * B w v.

Section Separate.
Variables (F : realFieldType) (h : hord) (p e : nat) (I : list nat) (G D : mat).
Hypotheses (SG : square p G) (NG : nonneg G) (AG : acyclic G) (SD : square p D) (ND : nonneg D) (AD : acyclic D).
Hypothesis sub : forall S : 'I_e -> 'M[F]_p, entails h 0 I G S -> entails h 0 I D S.
Variable rk : 'I_p -> nat.
Hypotheses (Hrk : forall a b : 'I_p, edge D a b -> (rk a < rk b)%N) (Irk : injective rk).

Local Notation T := (@short F p e).

Lemma T_alone (B : 'M[F]_p) (o : 'M[F]_(e, p)) i r k : (forall k, B r k = 0) -> (forall k, B k r = 0) -> T B o i r k = (r == k)%:R * o i r.
Proof. by move=> H1 H2; rewrite /short H1 H2 !mulr0 !addr0 bigop.big1 ?addr0 // => w _; rewrite H2 mulr0 mul0r. Qed.

Lemma mimic (B : 'M[F]_p) (o : 'M[F]_(e, p)) : supported G B -> B *m B = 0 -> positive o ->
  (forall j : 'I_p, ~ List.In (nat_of_ord j) I -> const_col o j) ->
  exists B' : 'M[F]_p, [/\ supported D B',
    forall (i : 'I_e) r y, (rk r < rk y)%N -> (forall k, B r k = 0) -> (forall k, B k r = 0) -> B' r y = 0,
    forall r y, (rk y <= rk r)%N -> B' r y = 0 &
    forall i c y, (forall r, r != c -> B' r y = 0) -> forall r, (rk r < rk y)%N -> T B o i r y = T B o i r c * B' c y].
Proof.
move=> HB BB Po Co; pose g : 'M[F]_(0, p) := 0; pose s : 'M[F]_(e, 0) := 0.
have /sub : entails h 0 I G (entailed B g o s).
  case: (new_model_spec h B g o s SG NG) => [[_ [_ Em]]|[[]]] //.
  by exists B, g, o, s, (MkModel G B g o s (1%:M - B^T)); split=> //; split=> // a [].
case=> B' [g' [o' [s' [m' [/(new_model_ok SD ND) [_ HB' _] Po' _ [_ E]]]]]].
have ET i u v : entailed B' g' o' s' i u v = T B o i u v by rewrite E (entailed_short g o s AG HB).
exists B'; split=> // [i r y lt H1 H2|r y le|i c y H r lt].
- apply: (@coef_alone _ _ _ _ _ g' o' s' AD HB' _ Hrk i _ _ lt) => [k kr|]; rewrite ET T_alone //.
    by rewrite eq_sym (negbTE kr) mul0r.
  by rewrite eqxx mul1r gt_eqF.
- exact: (coef_late HB' Hrk le).
- by rewrite -!ET; apply: (normal1 g' o' s' AD HB' Hrk i H lt).
Qed.

Lemma one_ok : positive (const_mx 1 : 'M[F]_(e, p)) /\ forall j : 'I_p, ~ List.In (nat_of_ord j) I -> const_col (const_mx 1 : 'M[F]_(e, p)) j.
Proof. by split=> [i j|j _ i i']; rewrite !mxE // ltr01. Qed.

(** The model with a single edge *)
Lemma single_short (a b : 'I_p) : a != b -> delta_mx a b *m delta_mx a b = 0 :> 'M[F]_p.
Proof. by move=> ab; rewrite mul_delta_mx_0 // eq_sym. Qed.

Lemma single_supported (a b : 'I_p) : edge G a b -> supported G (delta_mx a b : 'M[F]_p).
Proof. by move=> E u v; rewrite mxE; case: (u =P a) => [->|_]; case: (v =P b) => [->|_] /=; rewrite ?eqxx. Qed.

Lemma T_single (o : 'M[F]_(e, p)) (i : 'I_e) (a b : 'I_p) : a != b ->
  [/\ T (delta_mx a b) o i a b = o i a, T (delta_mx a b) o i b a = o i a & T (delta_mx a b) o i b b = o i b + o i a].
Proof.
move=> ab; have ba : (b == a) = false by rewrite eq_sym (negbTE ab).
rewrite /short !mxE !eqxx (negbTE ab) ba /= !mulr0 !mulr1 !mul1r !mul0r !add0r !addr0; split.
- by rewrite bigop.big1 ?addr0 // => w _; rewrite !mxE (negbTE ab) andbF mulr0 mul0r.
- by rewrite bigop.big1 ?addr0 // => w _; rewrite !mxE (negbTE ab) andbF mulr0.
- congr (_ + _); rewrite (bigD1 a) //= !mxE !eqxx !mulr1 bigop.big1 ?addr0 // => w /negbTE wa.
  by rewrite !mxE wa !mulr0.
Qed.

Lemma single_zero (a b r : 'I_p) : r != a -> r != b ->
  (forall k, (delta_mx a b : 'M[F]_p) r k = 0) /\ (forall k, (delta_mx a b : 'M[F]_p) k r = 0).
Proof. by move=> /negbTE ra /negbTE rb; split=> k; rewrite mxE ?ra ?rb ?andbF. Qed.

Lemma keep_edge (i0 : 'I_e) (a b : 'I_p) : edge G a b -> adjacent D a b.
Proof.
move=> E; have ab : a != b by apply/eqP => E'; rewrite -E' in E; case: (@AG a); apply: Relation_Operators.t_step.
case: (adjacent_dec D a b) => // NA.
have [o1 o2] := one_ok; have [B' [HB' H1 H2 H3]] := mimic (single_supported E) (single_short ab) o1 o2.
have [T1 T2 _] := T_single (const_mx 1) i0 ab.
have Z x y : (x, y) \in [:: (a, b); (b, a)] -> (rk x < rk y)%N -> False.
  move=> xy lt; have Zc r : r != x -> B' r y = 0.
    move=> rx; have [ry|yr] := ltnP (rk r) (rk y); last exact: H2.
    have ry' : r != y by apply: contraTneq ry => ->; rewrite ltnn.
    have [ra rb] : r != a /\ r != b by move: xy; rewrite !inE => /orP [] /eqP [Ex Ey]; subst.
    by have [Z1 Z2] := single_zero ra rb; apply: H1.
  have Bxy : B' x y = 0.
    apply/eqP; apply: contra_notT NA => /HB'; move: xy; rewrite !inE => /orP [] /eqP [-> ->]; [by left | by right].
  have := H3 i0 x y Zc x lt; rewrite Bxy mulr0; move: xy; rewrite !inE => /orP [] /eqP [-> ->].
    by rewrite T1 mxE => /eqP; rewrite oner_eq0.
  by rewrite T2 mxE => /eqP; rewrite oner_eq0.
case: (ltngtP (rk a) (rk b)) => [lt|gt|/Irk E']; last by rewrite E' eqxx in ab.
- by case: (Z a b); rewrite ?inE ?eqxx.
- by case: (Z b a); rewrite ?inE ?eqxx ?orbT.
Qed.

(** The model with two edges into c *)
Lemma T_collider i (a b c : 'I_p) : a != b -> a != c -> b != c ->
  let B := delta_mx a c + delta_mx b c : 'M[F]_p in
  [/\ T B (const_mx 1) i c b = 1, T B (const_mx 1) i a c = 1 & T B (const_mx 1) i a b = 0].
Proof.
move=> /negbTE ab /negbTE ac /negbTE bc B.
have ba : (b == a) = false by rewrite eq_sym.
have ca : (c == a) = false by rewrite eq_sym.
have cb : (c == b) = false by rewrite eq_sym.
rewrite /short /B !mxE !eqxx ?ab ?ac ?bc ?ba ?ca ?cb /= ?addr0 ?add0r ?mulr0 ?mul0r ?mulr1 ?mul1r ?addr0 ?add0r; split.
- by rewrite bigop.big1 ?addr0 // => w _; rewrite !mxE bc !andbF addr0 mulr0.
- by rewrite bigop.big1 ?addr0 // => w _; rewrite !mxE ac !andbF addr0 mulr0 mul0r.
- by rewrite bigop.big1 ?addr0 // => w _; rewrite !mxE ac !andbF addr0 mulr0 mul0r.
Qed.

Lemma keep_collider_half (i0 : 'I_e) (a b c : 'I_p) : edge G a c -> edge G b c -> a != b -> ~ adjacent D a b ->
  (rk a < rk b)%N -> edge D a c /\ edge D b c.
Proof.
move=> Eac Ebc ab Nab lt.
have neq u v : edge G u v -> u != v by move=> E; apply/eqP => E'; case: (@AG u); apply: Relation_Operators.t_step; rewrite {2}E'.
have ac := neq _ _ Eac; have bc := neq _ _ Ebc.
have [Dbc|Dcb] := keep_edge i0 Ebc.
  have [Dac|/Hrk Dca] := keep_edge i0 Eac; first by [].
  by have := ltn_trans lt (ltn_trans (Hrk Dbc) Dca); rewrite ltnn.
pose B := delta_mx a c + delta_mx b c : 'M[F]_p.
have HB : supported G B.
  move=> u v; rewrite !mxE; case: (v =P c) => [->|_]; last by rewrite !andbF addr0 eqxx.
  by rewrite !andbT; case: (u =P a) => [-> _|_] //; case: (u =P b) => [-> _|_] //; rewrite addr0 eqxx.
have BB : B *m B = 0.
  rewrite mulmxDl !mulmxDr !mul_delta_mx_0 ?addr0 // eq_sym //.
have [o1 o2] := one_ok; have [B' [HB' H1 H2 H3]] := mimic HB BB o1 o2.
have [T1 T2 T3] := T_collider i0 ab ac bc; rewrite -/B in T1 T2 T3.
have Zc r : r != c -> B' r b = 0.
  move=> rc; have [rb|br] := ltnP (rk r) (rk b); last exact: H2.
  have [ra|ra] := eqVneq r a; first by apply/eqP; rewrite ra; apply: contra_notT Nab => /HB'; left.
  have rb' : r != b by apply: contraTneq rb => ->; rewrite ltnn.
  by apply: H1 => // k; rewrite !mxE ?(negbTE ra) ?(negbTE rb') ?(negbTE rc) ?andbF addr0.
have Q0 := H3 i0 c b Zc a lt; have Q1 := H3 i0 c b Zc c (Hrk Dcb).
by move: Q1 Q0; rewrite T1 T2 T3 mul1r => Q1 Q0; rewrite -Q0 mulr0 in Q1; move/eqP: Q1; rewrite oner_eq0.
Qed.

Lemma keep_collider (i0 : 'I_e) (a b c : 'I_p) : edge G a c -> edge G b c -> a != b -> ~ adjacent D a b ->
  edge D a c /\ edge D b c.
Proof.
move=> Ea Eb ab Nab; case: (ltngtP (rk a) (rk b)) => [lt|gt|/Irk E]; last by rewrite E eqxx in ab.
  exact: (keep_collider_half i0).
have Nba : ~ adjacent D b a by case=> E; apply: Nab; [right | left].
by have [] := keep_collider_half i0 Eb Ea _ Nba gt; rewrite // eq_sym.
Qed.

Lemma keep_parent (i0 i1 : 'I_e) (a v : 'I_p) : i0 != i1 -> List.In (nat_of_ord v) I -> edge G a v -> edge D a v.
Proof.
move=> i01 Iv E; have [//|Dva] := keep_edge i0 E.
have av : a != v by apply/eqP => E'; rewrite -E' in E; case: (@AG a); apply: Relation_Operators.t_step.
pose o : 'M[F]_(e, p) := \matrix_(i, j) (1 + ((i == i0) && (j == v))%:R).
have Po : positive o by move=> i j; rewrite mxE ltr_paddr ?ltr01 ?ler0n.
have Co (j : 'I_p) : ~ List.In (nat_of_ord j) I -> const_col o j.
  by move=> Nj i i'; rewrite !mxE; case: (j =P v) => [E'|_]; [rewrite E' in Nj | rewrite !andbF].
have [B' [HB' H1 H2 H3]] := mimic (single_supported E) (single_short av) Po Co.
have Zc r : r != v -> B' r a = 0.
  move=> rv; have [ra|ar] := ltnP (rk r) (rk a); last exact: H2.
  have ra' : r != a by apply: contraTneq ra => ->; rewrite ltnn.
  by have [Z1 Z2] := single_zero ra' rv; apply: H1.
have Q i : o i a = (o i v + o i a) * B' v a.
  by have [_ <- <-] := T_single o i av; apply: H3 => //; apply: Hrk.
have Q1 := Q i1; rewrite !mxE (negbTE av) [i1 == _]eq_sym (negbTE i01) /= !addr0 in Q1.
have Q0 := Q i0; rewrite !mxE (negbTE av) !eqxx /= !addr0 mulrDl mul1r -Q1 -{1}[1]addr0 in Q0.
by move/addrI: Q0 => E0; rewrite -E0 mulr0 in Q1; move/eqP: Q1; rewrite oner_eq0.
Qed.
End Separate.

Section Main.
Variables (F : realFieldType) (h : hord) (p e : nat) (I : list nat) (G D : mat).
Hypotheses (SG : square p G) (NG : nonneg G) (AG : acyclic G) (SD : square p D) (ND : nonneg D) (AD : acyclic D).

Lemma acyclic_dir A a b : acyclic A -> edge A a b -> dir A a b.
Proof.
by move=> AA E; split=> // E'; apply: (AA a); apply: (Relation_Operators.t_trans _ _ _ b); apply: Relation_Operators.t_step.
Qed.

Lemma same_markov : (0 < e)%N -> (forall S : 'I_e -> 'M[F]_p, entails h 0 I G S <-> entails h 0 I D S) -> markov_equiv G D.
Proof.
move=> e0 H; pose i0 := Ordinal e0.
have [rk [R1 R2]] := acyclic_rank SD AD; have [rk' [R1' R2']] := acyclic_rank SG AG.
have H1 S : entails h 0 I G S -> entails h 0 I D S := proj1 (H S).
have H2 S : entails h 0 I D S -> entails h 0 I G S := proj2 (H S).
have ord A a b : square p A -> edge A a b -> exists i j : 'I_p, a = i /\ b = j.
  by move=> SA /(edge_lt p A a b SA) [/ssrnat.ltP la /ssrnat.ltP lb]; exists (Ordinal la), (Ordinal lb).
have SK : same_skeleton G D.
  move=> a b; split=> -[] E.
  - by have [i [j [? ?]]] := ord _ _ _ SG E; subst; apply: (keep_edge SG NG AG SD ND AD H1 R1 R2 i0 E).
  - have [i [j [? ?]]] := ord _ _ _ SG E; subst.
    by case: (keep_edge SG NG AG SD ND AD H1 R1 R2 i0 E); [right | left].
  - by have [i [j [? ?]]] := ord _ _ _ SD E; subst; apply: (keep_edge SD ND AD SG NG AG H2 R1' R2' i0 E).
  - have [i [j [? ?]]] := ord _ _ _ SD E; subst.
    by case: (keep_edge SD ND AD SG NG AG H2 R1' R2' i0 E); [right | left].
split=> // a c b; split=> -[[Eac _] [[Ebc _] [ab Nab]]].
- have [i [k [? ?]]] := ord _ _ _ SG Eac; have [j [_ [? _]]] := ord _ _ _ SG Ebc; subst.
  have Nd : ~ adjacent D i j by move/(SK i j).
  have ij : i != j by apply/eqP => E; apply: ab; rewrite E.
  have [Dac Dbc] := keep_collider SG NG AG SD ND AD H1 R1 R2 i0 Eac Ebc ij Nd.
  by split; [apply: acyclic_dir | split; [apply: acyclic_dir | ]].
- have [i [k [? ?]]] := ord _ _ _ SD Eac; have [j [_ [? _]]] := ord _ _ _ SD Ebc; subst.
  have Nd : ~ adjacent G i j by move/(SK i j).
  have ij : i != j by apply/eqP => E; apply: ab; rewrite E.
  have [Dac Dbc] := keep_collider SD ND AD SG NG AG H2 R1' R2' i0 Eac Ebc ij Nd.
  by split; [apply: acyclic_dir | split; [apply: acyclic_dir | ]].
Qed.

Lemma same_imarkov : (1 < e)%N -> (forall S : 'I_e -> 'M[F]_p, entails h 0 I G S <-> entails h 0 I D S) -> imarkov_equiv I G D.
Proof.
move=> e1 H; have e0 : (0 < e)%N by apply: ltnW.
split; first exact: same_markov.
have [rk [R1 R2]] := acyclic_rank SD AD; have [rk' [R1' R2']] := acyclic_rank SG AG.
have H1 S : entails h 0 I G S -> entails h 0 I D S := proj1 (H S).
have H2 S : entails h 0 I D S -> entails h 0 I G S := proj2 (H S).
have i01 : Ordinal e0 != Ordinal e1 by [].
have ord A a b : square p A -> edge A a b -> exists i j : 'I_p, a = i /\ b = j.
  by move=> SA /(edge_lt p A a b SA) [/ssrnat.ltP la /ssrnat.ltP lb]; exists (Ordinal la), (Ordinal lb).
move=> v Iv a; split=> E.
- by have [i [j [? ?]]] := ord _ _ _ SG E; subst; apply: (keep_parent SG NG AG SD ND AD H1 R1 R2 i01 Iv E).
- by have [i [j [? ?]]] := ord _ _ _ SD E; subst; apply: (keep_parent SD ND AD SG NG AG H2 R1' R2' i01 Iv E).
Qed.
End Main.

Section Iff.
Variables (F : realFieldType) (h : hord) (p e : nat) (I : list nat) (G D : mat).
Hypotheses (SG : square p G) (NG : nonneg G) (AG : acyclic G) (SD : square p D) (ND : nonneg D) (AD : acyclic D).

Lemma imarkov_sym J A B : imarkov_equiv J A B -> imarkov_equiv J B A.
Proof.
case=> -[E1 E2] E3; split; first by split=> [i j|i c j]; [rewrite (E1 i j) | rewrite (E2 i c j)].
by move=> v /E3 E i; rewrite (E i).
Qed.

Lemma imarkov_entails l A B (S : 'I_e -> 'M[F]_p) : square p A -> nonneg A -> square p B -> nonneg B -> acyclic B -> imarkov_equiv I A B ->
  entails h l I A S -> entails h l I B S.
Proof.
move=> SA NA SB NB AB EQ [M [g [o [s [m [Em Po Co [Ps ES]]]]]]].
have [B' [g' [o' [m' [Em' Po' Co' _ [EE _]]]]]] := equivalent_scores SA NA SB NB AB EQ Em Po Ps Co.
by exists B', g', o', s, m'; split=> //; split=> // i; rewrite EE.
Qed.

Lemma entails_iff : (1 < e)%N ->
  (forall S : 'I_e -> 'M[F]_p, entails h 0 I G S <-> entails h 0 I D S) <-> imarkov_equiv I G D.
Proof.
move=> e1; split; first exact: same_imarkov.
by move=> EQ S; split; apply: imarkov_entails => //; apply: imarkov_sym.
Qed.

Lemma entails_icpdag (h1 h2 : hord) : (1 < e)%N ->
  (forall S : 'I_e -> 'M[F]_p, entails h 0 I G S <-> entails h 0 I D S) <-> dag_to_icpdag h1 G I = dag_to_icpdag h2 D I.
Proof.
move=> /entails_iff H; apply: (iff_trans H); apply: iff_sym.
exact: (dag_to_icpdag_canonical h1 h2 p G D I I SG NG AG SD ND AD (fun=> iff_refl _)).
Qed.

(** The scores tell apart what the covariances tell apart *)
Lemma reaches_entails l (log : F -> F) : (forall c, 0 < c -> log_tangent_strict log p c) ->
  (forall (sigmas : 'I_e -> 'M[F]_p) n_obs, (forall i, posdef (sigmas i)) -> (forall i, (0 < n_obs i)%N) ->
     forall x, reaches h l I log sigmas n_obs G x <-> reaches h l I log sigmas n_obs D x) <->
  (forall S : 'I_e -> 'M[F]_p, entails h l I G S <-> entails h l I D S).
Proof.
move=> Hlog; split=> [H S|H sigmas n_obs _ _ x].
  have K A B : square p A -> nonneg A -> square p B -> nonneg B ->
    (forall (sigmas : 'I_e -> 'M[F]_p) n_obs, (forall i, posdef (sigmas i)) -> (forall i, (0 < n_obs i)%N) ->
       forall x, reaches h l I log sigmas n_obs A x -> reaches h l I log sigmas n_obs B x) ->
    entails h l I A S -> entails h l I B S.
    move=> SA NA SB NB HAB [M [g [o [s [m [Em Po Co [Ps ES]]]]]]].
    have PD i : posdef (entailed M g o s i) := entailed_posdef SA NA Em Po Ps i.
    have Hl i : log_tangent_strict log p (\det (noise g o s i))^-1.
      by apply: Hlog; rewrite invr_gt0; apply: posdef_det; rewrite noiseE; apply: posdef_noise => j; rewrite mxE.
    have [x [_ [Ex _ _]]] := score_minimal (fun=> 1%N) SA NA Em Po Ps SA NA Em Po Ps (fun i => let: And3 t _ _ := Hl i in t).
    have [] := HAB (entailed M g o s) (fun=> 1%N) PD (fun=> isT) x; first by exists M, g, o, s, m.
    move=> B' [g' [o' [s' [m' [Em' Po' Co' [Ps' Ex']]]]]].
    exists B', g', o', s', m'; split=> //; split=> // i; rewrite -ES.
    by apply: (score_unique SA NA Em Po Ps SB NB Em' Po' Ps' Hl (fun=> isT : (0 < 1)%N)); rewrite Ex Ex'.
  by split; apply: K => // sigmas n_obs H1 H2 x; apply H.
have R A A' : square p A -> nonneg A -> square p A' -> nonneg A' ->
  (forall S : 'I_e -> 'M[F]_p, entails h l I A S -> entails h l I A' S) ->
  reaches h l I log sigmas n_obs A x -> reaches h l I log sigmas n_obs A' x.
  move=> SA NA SA' NA' HS [B [g [o [s [m [Em Po Co [Ps Es]]]]]]].
  have [|B' [g' [o' [s' [m' [Em' Po' Co' [Ps' ES']]]]]]] := HS (entailed B g o s); first by exists B, g, o, s, m.
  exists B', g', o', s', m'; split=> //; split=> //; rewrite -Es.
  exact: (score_entailed log sigmas n_obs SA' NA' Em' Po' Ps' SA NA Em Po Ps ES').
by split; apply: R => // S; case: (H S).
Qed.

Lemma reaches_log l (log : F -> F) : log_like log ->
  (forall (sigmas : 'I_e -> 'M[F]_p) n_obs, (forall i, posdef (sigmas i)) -> (forall i, (0 < n_obs i)%N) ->
     forall x, reaches h l I log sigmas n_obs G x <-> reaches h l I log sigmas n_obs D x) <->
  (forall S : 'I_e -> 'M[F]_p, entails h l I G S <-> entails h l I D S).
Proof. by move=> L; apply: reaches_entails => c; apply: log_like_tangent. Qed.
End Iff.

Lemma entails_one (F : realFieldType) (h : hord) (p : nat) (I : list nat) (G D : mat) :
  square p G -> nonneg G -> acyclic G -> square p D -> nonneg D -> acyclic D ->
  (forall S : 'I_1 -> 'M[F]_p, entails h 0 I G S <-> entails h 0 I D S) <-> markov_equiv G D.
Proof.
move=> SG NG AG SD ND AD; split; first exact: same_markov.
have N A (S : 'I_1 -> 'M[F]_p) : entails h 0 I A S <-> entails h 0 nil A S.
  split=> -[B [g [o [s [m [Em Po _ ES]]]]]]; exists B, g, o, s, m; split=> // j _ i i'; by rewrite (ord1 i) (ord1 i').
move=> EQ S; rewrite !N; have EQ0 : imarkov_equiv nil G D by [].
by split; apply: imarkov_entails => //; apply: imarkov_sym.
Qed.

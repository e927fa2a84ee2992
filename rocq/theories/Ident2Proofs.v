(** With latent variables whose variances change: DAGs that entail the same covariances are Markov equivalent. *)
From Coq Require Import ZArith List.
From mathcomp Require Import all_ssreflect all_algebra.
From Verif Require Import Base GraphSpec NumSpec GradSpec GraphModel NumModel TopoProofs LinAlgProofs NumProofs GradProofs.
From Verif Require Import Basic2Proofs CompelledProofs CpdagProofs ConsistProofs FieldTac IdentSpec IdentProofs.
Set Implicit Arguments.
Unset Strict Implicit.
Unset Printing Implicit Defensive.
Import Order.Theory GRing.Theory Num.Theory.
Local Open Scope ring_scope.

Lemma avoid p l (X : {set 'I_p}) : (l + #|X| <= p)%N -> exists f : 'I_l -> 'I_p, injective f /\ forall a, f a \notin X.
Proof.
move=> H; have C : (l <= #|~: X|)%N by rewrite cardsCs setCK card_ord leq_subRL ?(leq_trans _ H) ?leq_addl // addnC.
have lt (a : 'I_l) : (a < #|~: X|)%N by apply: leq_trans C.
exists (fun a => enum_val (Ordinal (lt a))); split=> [a b /enum_val_inj [] /val_inj //|a].
by have := enum_valP (Ordinal (lt a)); rewrite inE.
Qed.

Section Posdef.
Variables (F : realFieldType) (p : nat).
Lemma posdef_zero (M : 'M[F]_p) (x : 'I_p -> F) : posdef M -> (forall r, x r * (\sum_k M r k * x k) = 0) -> forall r, x r = 0.
Proof.
move=> [_ P] H; pose v : 'cV[F]_p := \col_r x r; have [v0|/P] := eqVneq v 0.
  by move=> r; have := congr1 (fun w : 'cV[F]_p => w r 0) v0; rewrite !mxE.
suff -> : (v^T *m M *m v) 0 0 = 0 by rewrite ltxx.
rewrite -mulmxA mxE bigop.big1 // => r _; rewrite !mxE -[RHS](H r); congr (_ * _).
by apply: eq_bigr => k _; rewrite mxE.
Qed.
End Posdef.

Section Latent.
Variables (F : realFieldType) (h : hord) (p l e : nat) (G D : mat).
Hypotheses (SG : square p G) (NG : nonneg G) (AG : acyclic G) (SD : square p D) (ND : nonneg D) (AD : acyclic D).
Hypothesis sub : forall S : 'I_e -> 'M[F]_p, entails h l nil G S -> entails h l nil D S.
Variable rk : 'I_p -> nat.
Hypotheses (Hrk : forall a b : 'I_p, edge D a b -> (rk a < rk b)%N) (Irk : injective rk).
Variables i0 i1 : 'I_e.
Hypothesis i01 : i0 != i1.
Local Notation one := (const_mx 1 : 'M[F]_(e, p)).
Local Notation none := (0 : 'M[F]_(0, p)).
Local Notation none' := (0 : 'M[F]_(e, 0)).

Lemma entailed_latent (B : 'M[F]_p) (g : 'M[F]_(l, p)) o (s : 'M[F]_(e, l)) i :
  entailed B g o s i = entailed B none o none' i + (invmx (1%:M - B^T) *m g^T) *m diag_mx (row i s) *m (invmx (1%:M - B^T) *m g^T)^T.
Proof.
rewrite /entailed noise0 noiseE /noise_cov trmx_mul trmxK !mulmxA mulmxDr mulmxDl addrC; congr (_ + _).
by rewrite !mulmxA.
Qed.

Local Notation T := (@short F p e).
Lemma short_sym (B : 'M[F]_p) (o : 'M[F]_(e, p)) i u v : T B o i u v = T B o i v u.
Proof.
case: (eqVneq u v) => [->//|uv]; rewrite /short (negbTE uv) eq_sym (negbTE uv) !mul0r !add0r [_ * B v u + _]addrC.
by congr (_ + _); apply: eq_bigr => w _; rewrite mulrAC.
Qed.

(** A model over G with covariances T in environment i0, and one over D that entails the same covariances.  The latents have
    effects on the variables f a only. *)
Lemma mimic_latent (f : 'I_l -> 'I_p) (B : 'M[F]_p) : injective f -> supported G B -> B *m B = 0 ->
  exists (B' : 'M[F]_p) (o' : 'M[F]_(e, p)), [/\ supported D B', posdef (entailed B' none o' none' i0) &
    forall u v, (forall a, f a != u) \/ (forall a, f a != v) -> entailed B' none o' none' i0 u v = T B one i0 u v].
Proof.
move=> If HB BB; pose V : 'M[F]_(p, l) := \matrix_(x, a) (f a == x)%:R.
pose Q := 1%:M - B^T; have uQ : Q \in unitmx by rewrite unitmxE (det_sub_dag AG HB) unitr1.
pose g := (Q *m V)^T; pose s : 'M[F]_(e, l) := \matrix_(i, a) (i != i0)%:R.
have [o1 o2] := one_ok F p e nil.
have EV : invmx Q *m g^T = V by rewrite trmxK mulKmx.
have /sub : entails h l nil G (entailed B g one s).
  case: (new_model_spec h B g one s SG NG) => [[_ [_ Em]]|[[]]] //.
  by exists B, g, one, s, (MkModel G B g one s Q); split=> //; split=> // a b; rewrite mxE ler0n.
case=> B' [g' [o' [s' [m' [/(new_model_ok SD ND) [_ HB' _] Po' Co' [Ps' E]]]]]].
pose Q' := 1%:M - B'^T; have uQ' : Q' \in unitmx by rewrite unitmxE (det_sub_dag AD HB') unitr1.
pose W := invmx Q' *m g'^T.
have Eo i : entailed B' none o' none' i = entailed B' none o' none' i0.
  rewrite /entailed !noise0; congr (_ *m diag_mx _ *m _).
  by apply/rowP => j; rewrite !mxE; apply: Co'.
have E1 i : entailed B' none o' none' i0 + W *m diag_mx (row i s') *m W^T =
  entailed B none one none' i + V *m diag_mx (row i s) *m V^T.
  by have := E i; rewrite (entailed_latent B') (entailed_latent B) EV Eo.
have Ei : entailed B none one none' i1 = entailed B none one none' i0.
  by rewrite /entailed !noise0; congr (_ *m diag_mx _ *m _); apply/rowP => j; rewrite !mxE.
pose dg := diag_mx (row i1 s' - row i0 s').
have ED : W *m dg *m W^T = V *m V^T.
  have R0 : row i0 s = 0 by apply/rowP => a; rewrite !mxE eqxx.
  have R1 : diag_mx (row i1 s) = 1%:M.
    by apply/matrixP => a b; rewrite !mxE eq_sym i01.
  have := congr2 (fun X Y : 'M[F]_p => X - Y) (E1 i1) (E1 i0).
  rewrite Ei R0 R1 linear0 mulmx0 mul0mx addr0 mulmx1 [X in X - _]addrC addrKA [X in _ = X - _]addrC addrK => <-.
  by rewrite /dg linearB /= mulmxBr mulmxBl.
have VV u v : (V *m V^T) u v = \sum_a (f a == u)%:R * (f a == v)%:R by rewrite mxE; apply: eq_bigr => a _; rewrite !mxE.
pose Wf : 'M[F]_l := \matrix_(a, b) W (f a) b.
have EWf x : row x W *m dg *m Wf^T = \row_a (V *m V^T) x (f a).
  apply/rowP => a; rewrite -ED !mxE; apply: eq_bigr => b _; rewrite !mxE; congr (_ * _).
  by apply: eq_bigr => c _; rewrite !mxE.
have inv : Wf *m dg *m Wf^T = 1%:M.
  apply/row_matrixP => a; rewrite !row_mul; have -> : row a Wf = row (f a) W by apply/rowP => b; rewrite !mxE.
  rewrite EWf; apply/rowP => b; rewrite [LHS]mxE VV [RHS]mxE [RHS]mxE (bigD1 a) //= eqxx mul1r bigop.big1 ?addr0 => [|c ca].
    by rewrite (inj_eq If).
  by rewrite (inj_eq If) (negbTE ca) mul0r.
have W0 x : (forall a, f a != x) -> row x W = 0.
  move=> fx; have inv' : dg *m Wf^T *m Wf = 1%:M by apply: mulmx1C; rewrite mulmxA.
  rewrite -[row x W]mulmx1 -inv' !mulmxA EWf (_ : \row__ _ = 0) ?mul0mx //.
  by apply/rowP => a; rewrite [LHS]mxE VV [RHS]mxE bigop.big1 // => b _; rewrite (negbTE (fx b)) mul0r.
exists B', o'; split=> // [|u v uv].
  by apply: posdef_congr; rewrite ?unitmx_inv // noiseE; apply: posdef_noise => // j; rewrite ?mxE //; case: j.
have R0 : row i0 s = 0 by apply/rowP => a; rewrite !mxE eqxx.
have Z (d : 'M[F]_l) : (W *m d *m W^T) u v = 0.
  rewrite mxE bigop.big1 // => b _; case: uv => [/W0|/W0] R; last first.
    by move/rowP/(_ b): R; rewrite !mxE => ->; rewrite mulr0.
  rewrite mxE bigop.big1 ?mul0r // => c _; by move/rowP/(_ c): R; rewrite !mxE => ->; rewrite mul0r.
have := congr1 (fun X : 'M[F]_p => X u v) (E1 i0); rewrite R0 linear0 mulmx0 mul0mx addr0 mxE Z addr0 => ->.
by rewrite (entailed_short none one none' AG HB).
Qed.

(** Both graphs have the same edges, up to direction *)
Lemma neq_edge A (u v : 'I_p) : acyclic A -> edge A u v -> u != v.
Proof. by move=> AA E; apply/eqP => E'; rewrite -E' in E; apply: (AA u); apply: Relation_Operators.t_step. Qed.

Lemma keep_edge_latent (a b : 'I_p) : (l < p)%N -> edge G a b -> adjacent D a b.
Proof.
move=> lp E; have ab := neq_edge AG E; case: (adjacent_dec D a b) => // NA.
have [f [If Hf]] : exists f : 'I_l -> 'I_p, injective f /\ forall x, f x \notin [set b] by apply: avoid; rewrite cards1 addn1.
have fb x : f x != b by have := Hf x; rewrite inE.
have [B' [o' [HB' PD ET]]] := mimic_latent If (single_supported (F := F) E) (single_short F ab).
have [T1 T2 T3] := T_single one i0 ab; have Tz r k : r != a -> r != b -> T (delta_mx a b) one i0 r k = (r == k)%:R.
  by move=> ra rb; have [Z1 Z2] := single_zero F ra rb; rewrite T_alone // mxE mulr1.
have No := normal none o' none' AD HB' Hrk i0; have late r y := coef_late HB' Hrk (r := r) (y := y).
case: (ltngtP (rk a) (rk b)) => [lt|gt|/Irk E']; last by rewrite E' eqxx in ab.
- have Bab : B' a b = 0 by apply/eqP; apply: contra_notT NA => /HB'; left.
  have Z : forall r, B' r b = 0.
    apply: (posdef_zero PD) => r; have [rb|/late ->] := ltnP (rk r) (rk b); last by rewrite mul0r.
    rewrite -No // ET; last by right.
    have [->|ra] := eqVneq r a; first by rewrite Bab mul0r.
    have rb' : r != b by apply: contraTneq rb => ->; rewrite ltnn.
    by rewrite Tz // (negbTE rb') mulr0.
  have := No a b lt; rewrite bigop.big1 => [|k _]; last by rewrite Z mulr0.
  by rewrite ET; [rewrite T1 mxE => /eqP; rewrite oner_eq0 | right].
- have Bba : B' b a = 0 by apply/eqP; apply: contra_notT NA => /HB'; right.
  have := No b a gt; rewrite bigop.big1 => [|k _].
    by rewrite ET; [rewrite T2 mxE => /eqP; rewrite oner_eq0 | left].
  have [->|kb] := eqVneq k b; first by rewrite Bba mulr0.
  have [->|ka] := eqVneq k a; first by rewrite late ?mulr0.
  by rewrite ET; [rewrite short_sym Tz // (negbTE kb) mul0r | left].
Qed.

(** ... and the same colliders *)
Lemma keep_collider_latent (a b c : 'I_p) : (l.+1 < p)%N -> edge G a c -> edge G b c -> a != b -> ~ adjacent D a b ->
  edge D a c /\ edge D b c.
Proof.
move=> lp Eac Ebc ab Nab; have ac := neq_edge AG Eac; have bc := neq_edge AG Ebc.
have lp' : (l < p)%N by apply: ltnW.
have Aac := keep_edge_latent lp' Eac; have Abc := keep_edge_latent lp' Ebc.
have [f [If Hf]] : exists f : 'I_l -> 'I_p, injective f /\ forall x, f x \notin [set b; c].
  by apply: avoid; rewrite cards2 bc addn2.
have fb x : f x != b by have := Hf x; rewrite !inE negb_or => /andP [].
have fc x : f x != c by have := Hf x; rewrite !inE negb_or => /andP [].
pose B := delta_mx a c + delta_mx b c : 'M[F]_p.
have HB : supported G B.
  move=> u v; rewrite !mxE; case: (v =P c) => [->|_]; last by rewrite !andbF addr0 eqxx.
  by rewrite !andbT; case: (u =P a) => [-> _|_] //; case: (u =P b) => [-> _|_] //; rewrite addr0 eqxx.
have BB : B *m B = 0 by rewrite mulmxDl !mulmxDr !mul_delta_mx_0 ?addr0 // eq_sym //.
have [B' [o' [HB' PD ET]]] := mimic_latent If HB BB.
have [T1 T2 T3] := T_collider F i0 ab ac bc; rewrite -/B in T1 T2 T3.
have Tz r k : r != a -> r != b -> r != c -> T B one i0 r k = (r == k)%:R.
  move=> /negbTE ra /negbTE rb /negbTE rc.
  by rewrite T_alone ?[one _ _]mxE ?mulr1 // => x; rewrite !mxE ?ra ?rb ?rc ?andbF addr0.
have No := normal none o' none' AD HB' Hrk i0; have late r y := coef_late HB' Hrk (r := r) (y := y).
have nab : B' a b = 0 by apply/eqP; apply: contra_notT Nab => /HB'; left.
have nba : B' b a = 0 by apply/eqP; apply: contra_notT Nab => /HB'; right.
case: (ltngtP (rk a) (rk b)) => [lt|gt|/Irk E']; last by rewrite E' eqxx in ab.
- have [Dbc|Dcb] := Abc.
    have [//|/Hrk Dca] := Aac.
    by have := ltn_trans lt (ltn_trans (Hrk Dbc) Dca); rewrite ltnn.
  pose x r := if r == c then 0 else B' r b.
  have Sx r : \sum_k entailed B' none o' none' i0 r k * B' k b =
    entailed B' none o' none' i0 r c * B' c b + \sum_k entailed B' none o' none' i0 r k * x k.
    rewrite (bigD1 c) //=; congr (_ + _); rewrite [RHS](bigD1 c) //= /x eqxx mulr0 add0r.
    by apply: eq_bigr => k /negbTE ->.
  have Z : forall r, x r = 0.
    apply: (posdef_zero PD) => r; rewrite {1}/x; have [_|rc] := eqVneq r c; first by rewrite mul0r.
    have [rb|/late ->] := ltnP (rk r) (rk b); last by rewrite mul0r.
    have [->|ra] := eqVneq r a; first by rewrite nab mul0r.
    have rb' : r != b by apply: contraTneq rb => ->; rewrite ltnn.
    have := No r b rb; rewrite Sx ET; last by right.
    rewrite Tz // (negbTE rb') ET; last by right.
    by rewrite Tz // (negbTE rc) mul0r add0r => <-; rewrite mulr0.
  have Sx0 r : \sum_k entailed B' none o' none' i0 r k * x k = 0 by rewrite bigop.big1 // => k _; rewrite Z mulr0.
  have := No a b lt; rewrite Sx Sx0 addr0 ET; last by right.
  rewrite T3 ET; last by right.
  rewrite T2 mul1r => Q0; have := No c b (Hrk Dcb); rewrite Sx Sx0 -Q0 mulr0 addr0 ET; last by right.
  by rewrite T1 => /eqP; rewrite oner_eq0.
- have [Dac|Dca] := Aac.
    have [//|/Hrk Dcb] := Abc.
    by have := ltn_trans gt (ltn_trans (Hrk Dac) Dcb); rewrite ltnn.
  have Bca : B' c a = 0.
    have := No b a gt; rewrite ET; last by left.
    rewrite short_sym T3 (bigD1 c) //= bigop.big1 ?addr0 => [|k kc].
      rewrite ET; last by left.
      by rewrite short_sym T1 mul1r.
    have [->|kb] := eqVneq k b; first by rewrite nba mulr0.
    have [->|ka] := eqVneq k a; first by rewrite late ?mulr0.
    by rewrite ET; [rewrite short_sym Tz // (negbTE kb) mul0r | left].
  have := No c a (Hrk Dca); rewrite ET; last by left.
  rewrite short_sym T2 bigop.big1 => [/eqP|k _]; first by rewrite oner_eq0.
  have [->|kc] := eqVneq k c; first by rewrite Bca mulr0.
  have [->|kb] := eqVneq k b; first by rewrite nba mulr0.
  have [->|ka] := eqVneq k a; first by rewrite late ?mulr0.
  by rewrite ET; [rewrite short_sym Tz // (negbTE kc) mul0r | left].
Qed.
End Latent.

Section Main.
Variables (F : realFieldType) (h : hord) (p l e : nat) (G D : mat).
Hypotheses (SG : square p G) (NG : nonneg G) (AG : acyclic G) (SD : square p D) (ND : nonneg D) (AD : acyclic D).
Hypotheses (e1 : (1 < e)%N) (lp : (l.+1 < p)%N).

Lemma same_markov_latent : (forall S : 'I_e -> 'M[F]_p, entails h l nil G S <-> entails h l nil D S) -> markov_equiv G D.
Proof.
move=> H; have e0 : (0 < e)%N by apply: ltnW.
have lp' : (l < p)%N by apply: ltnW.
have i01 : Ordinal e0 != Ordinal e1 by [].
have [rk [R1 R2]] := acyclic_rank SD AD; have [rk' [R1' R2']] := acyclic_rank SG AG.
have H1 S : entails h l nil G S -> entails h l nil D S := proj1 (H S).
have H2 S : entails h l nil D S -> entails h l nil G S := proj2 (H S).
have ord A a b : square p A -> edge A a b -> exists i j : 'I_p, a = i /\ b = j.
  by move=> SA /(edge_lt p A a b SA) [/ssrnat.ltP la /ssrnat.ltP lb]; exists (Ordinal la), (Ordinal lb).
have SK : same_skeleton G D.
  move=> a b; split=> -[] E.
  - by have [i [j [? ?]]] := ord _ _ _ SG E; subst; apply: (keep_edge_latent SG NG AG SD ND AD H1 R1 R2 i01 lp' E).
  - have [i [j [? ?]]] := ord _ _ _ SG E; subst.
    by case: (keep_edge_latent SG NG AG SD ND AD H1 R1 R2 i01 lp' E); [right | left].
  - by have [i [j [? ?]]] := ord _ _ _ SD E; subst; apply: (keep_edge_latent SD ND AD SG NG AG H2 R1' R2' i01 lp' E).
  - have [i [j [? ?]]] := ord _ _ _ SD E; subst.
    by case: (keep_edge_latent SD ND AD SG NG AG H2 R1' R2' i01 lp' E); [right | left].
split=> // a c b; split=> -[[Eac _] [[Ebc _] [ab Nab]]].
- have [i [k [? ?]]] := ord _ _ _ SG Eac; have [j [_ [? _]]] := ord _ _ _ SG Ebc; subst.
  have Nd : ~ adjacent D i j by move/(SK i j).
  have ij : i != j by apply/eqP => E; apply: ab; rewrite E.
  have [Dac Dbc] := keep_collider_latent SG NG AG SD ND AD H1 R1 R2 i01 lp Eac Ebc ij Nd.
  by split; [apply: acyclic_dir | split; [apply: acyclic_dir | ]].
- have [i [k [? ?]]] := ord _ _ _ SD Eac; have [j [_ [? _]]] := ord _ _ _ SD Ebc; subst.
  have Nd : ~ adjacent G i j by move/(SK i j).
  have ij : i != j by apply/eqP => E; apply: ab; rewrite E.
  have [Dac Dbc] := keep_collider_latent SD ND AD SG NG AG H2 R1' R2' i01 lp Eac Ebc ij Nd.
  by split; [apply: acyclic_dir | split; [apply: acyclic_dir | ]].
Qed.

Lemma entails_latent (h1 h2 : hord) :
  (forall S : 'I_e -> 'M[F]_p, entails h l nil G S <-> entails h l nil D S) <-> dag_to_cpdag h1 G = dag_to_cpdag h2 D.
Proof.
rewrite (dag_to_cpdag_canonical h1 h2 p G D SG NG AG SD ND AD); split; first exact: same_markov_latent.
move=> EQ S; have EQ0 : imarkov_equiv nil G D by [].
by split; apply: imarkov_entails => //; apply: imarkov_sym.
Qed.
End Main.

(** One environment: a latent variable explains what an edge explains. *)
Section One.
Variables (F : realFieldType) (h : hord).
Add Field ff : (fieldT F).
Definition edge2 : mat := cons (cons Z0 (cons (Zpos xH) nil)) (cons (cons Z0 (cons Z0 nil)) nil).
Definition empty2 : mat := cons (cons Z0 (cons Z0 nil)) (cons (cons Z0 (cons Z0 nil)) nil).
Lemma edge2_dag : dag01 2 edge2. Proof. by apply: dag01b_ok. Qed.
Lemma empty2_dag : dag01 2 empty2. Proof. by apply: dag01b_ok. Qed.

Lemma one_latent (S : 'I_1 -> 'M[F]_2) : entails h 1 nil edge2 S <-> entails h 1 nil empty2 S.
Proof.
have [S1 [B1 A1]] := edge2_dag; have [S2 [B2 A2]] := empty2_dag.
have N1 := binary_nonneg B1; have N2 := binary_nonneg B2; split; last first.
  case=> B [g [o [s [m [Em Po Co [Ps ES]]]]]]; have [_ HB _] := new_model_ok S2 N2 Em.
  have B0 : B = 0.
    apply/matrixP => i j; apply/eqP; rewrite mxE; apply: contraT => /HB.
    by case: i => [[|[|[]]] ?] //; case: j => [[|[|[]]] ?] //; rewrite /edge /get /= => /(_ erefl).
  case: (new_model_spec h B g o s S1 N1) => [[_ [_ Em']]|[[]]]; first by exists B, g, o, s, (MkModel edge2 B g o s (1%:M - B^T)).
  by split=> //; rewrite B0 => i j; rewrite mxE eqxx.
case=> B [g [o [s [m [Em Po Co [Ps ES]]]]]].
have PD : posdef (S 0) by rewrite -ES; apply: (entailed_posdef S1 N1 Em Po Ps).
pose a := S 0 0 0; pose b := S 0 1 1; pose c := S 0 0 1.
have c' : S 0 1 0 = c by have [E _] := PD; rewrite -{1}E mxE.
have quad (x0 x1 : F) : (x0 != 0) || (x1 != 0) -> 0 < x0 * x0 * a + (x0 * x1 * c + x0 * x1 * c) + x1 * x1 * b.
  move=> nz; pose v : 'cV[F]_2 := \col_i (if i == 0 then x0 else x1).
  have [_ /(_ v)] := PD; rewrite mxE !big_ord_recl big_ord0 !mxE !big_ord_recl !big_ord0 !mxE /=.
  rewrite (_ : lift 0 0 = 1) ?c' -/a -/b -/c; last by apply: val_inj.
  rewrite !addr0 => Q; have -> : x0 * x0 * a + (x0 * x1 * c + x0 * x1 * c) + x1 * x1 * b = (x0 * a + x1 * c) * x0 + (x0 * c + x1 * b) * x1.
    by rg F.
  apply: Q; apply/eqP => v0; move: nz; have := congr1 (fun w : 'cV[F]_2 => w 0 0) v0; have := congr1 (fun w : 'cV[F]_2 => w 1 0) v0.
  by rewrite !mxE /= => -> ->; rewrite eqxx.
have b0 : 0 < b by have := quad 0 1; rewrite oner_eq0 orbT !mul0r !add0r !mul1r; apply.
have ab : c * c / b < a.
  have /(quad b (- c)) : (b != 0) || (- c != 0) by rewrite gt_eqF.
  have -> : b * b * a + (b * - c * c + b * - c * c) + - c * - c * b = b * (b * a - c * c) by rg F.
  by rewrite pmulr_rgt0 // subr_gt0 ltr_pdivr_mulr // [a * b]mulrC.
pose t := (c * c / b + a) / 2%:R.
have d0 : 0 <= c * c / b by rewrite divr_ge0 ?(ltW b0) // -expr2 sqr_ge0.
have [t1 t2] : c * c / b < t /\ t < a by have [? ?] := midf_lt ab.
have t0 : 0 < t by apply: le_lt_trans t1.
pose g' : 'M[F]_(1, 2) := \matrix_(_, j) (if j == 0 then 1 else c / t).
pose o' : 'M[F]_(1, 2) := \matrix_(_, j) (if j == 0 then a - t else b - c * c / t).
pose s' : 'M[F]_(1, 1) := const_mx t.
have HB : supported empty2 (0 : 'M[F]_2) by move=> i j; rewrite mxE eqxx.
case: (new_model_spec h 0 g' o' s' S2 N2) => [[_ [_ Em']]|[[]]] //.
exists 0, g', o', s', (MkModel empty2 0 g' o' s' (1%:M - 0^T)); split=> //.
- move=> i j; rewrite mxE; case: ifP => _; rewrite subr_gt0 // ltr_pdivr_mulr // [b * t]mulrC -ltr_pdivr_mulr //.
- by move=> j _ i i'; rewrite (ord1 i) (ord1 i').
split=> [x y|i]; first by rewrite mxE ltW.
rewrite (ord1 i) /entailed trmx0 subr0 invmx1 mul1mx trmx1 mulmx1; apply/matrixP => u v.
have tn : t != 0 by rewrite gt_eqF.
rewrite !mxE big_ord1 !mxE.
have two (x : 'I_2) : x = 0 \/ x = 1 by case: x => [[|[|[]]] X] //; [left | right]; apply: val_inj.
case: (two u) => ->; case: (two v) => -> /=; rewrite ?c' -/a -/b -/c.
- by rg F.
- by fd F; apply/eqP.
- by fd F; apply/eqP.
- by fd F; apply/eqP.
Qed.

Lemma one_latent_refuted : exists G D : mat,
  [/\ dag01 2 G, dag01 2 D, (forall S : 'I_1 -> 'M[F]_2, entails h 1 nil G S <-> entails h 1 nil D S) & ~ markov_equiv G D].
Proof.
exists edge2, empty2; split; [exact: edge2_dag | exact: empty2_dag | exact: one_latent | case=> SK _].
have /(proj1 (SK 0%N 1%N)) : adjacent edge2 0 1 by left.
by case; rewrite /edge.
Qed.
End One.

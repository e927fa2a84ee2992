(** utils.normalized_var. *)
From Coq Require Import ZArith.
From mathcomp Require Import all_ssreflect all_algebra.
From Verif Require Import Base FieldTac UtilNumModel UtilNumSpec.
Set Implicit Arguments.
Unset Strict Implicit.
Unset Printing Implicit Defensive.
Import Order.Theory GRing.Theory Num.Theory.
Local Open Scope ring_scope.

Section Nvar.
Variable F : realFieldType.
Implicit Types (x : seq F) (c v : F).

Lemma sumsq_ge0 x : 0 <= \sum_(a <- x) a ^+ 2.
Proof. by apply: sumr_ge0 => a _; apply: sqr_ge0. Qed.
Lemma sumsq_eq0 x : \sum_(a <- x) a ^+ 2 = 0 -> forall a, a \in x -> a = 0.
Proof.
  elim: x => [|b x IH] //; rewrite big_cons => /eqP; rewrite paddr_eq0 ?sqr_ge0 ?sumsq_ge0 //.
  case/andP=> /eqP H1 /eqP H2 a; rewrite inE => /orP[/eqP ->|/(IH H2) //].
  by apply/eqP; rewrite -sqrf_eq0; apply/eqP.
Qed.
Lemma sumsq0 x : (forall a, a \in x -> a = 0) -> \sum_(a <- x) a ^+ 2 = 0.
Proof. by move=> H; rewrite big_seq big1 // => a /H ->; rewrite expr0n. Qed.
Add Field ff : (fieldT F).
Lemma sum_dev x m : \sum_(a <- x) (a - m) ^+ 2 = \sum_(a <- x) a ^+ 2 - (m + m) * (\sum_(a <- x) a) + (size x)%:R * (m * m).
Proof.
  elim: x => [|a x IH]; first by rewrite !big_nil /= mulr0 subr0 mul0r addr0.
  rewrite !big_cons IH /= mulrS !expr2; move: (\sum_(j <- x) j ^+ 2) (\sum_(j <- x) j) ((size x)%:R : F) => q s n.
  by rg F.
Qed.

Definition nv x : F := (\sum_(a <- x) (a - np_mean x) ^+ 2) / \sum_(a <- x) a ^+ 2.
Lemma np_mean_map (f : F -> F) x : np_mean [seq f a | a <- x] = (\sum_(a <- x) f a) / (size x)%:R.
Proof. by rewrite /np_mean big_map size_map. Qed.
Lemma size_neq0 x : \sum_(a <- x) a ^+ 2 != 0 -> (size x)%:R != 0 :> F.
Proof. by case: x => [|a x]; rewrite ?big_nil ?eqxx // => _; rewrite pnatr_eq0. Qed.
Lemma nvarE x : nvar x = if \sum_(a <- x) a ^+ 2 == 0 then None else Some (nv x).
Proof.
  rewrite /nvar /np_var !np_mean_map; case: ifP => H.
  - have [_|N] := eqVneq (\sum_(a <- x) a ^+ 2) 0; first by [].
    by move: H; rewrite mulf_eq0 (negPf N) invr_eq0 (negPf (size_neq0 N)).
  - have [E|N] := eqVneq (\sum_(a <- x) a ^+ 2) 0; first by rewrite E mul0r eqxx in H.
    by rewrite /nv invfM invrK mulrACA mulVf ?mulr1 ?size_neq0.
Qed.
Lemma nvar_normalised x : normalised x (nvar x).
Proof.
  rewrite nvarE; have [E|N] /= := eqVneq; first exact: sumsq_eq0.
  have n0 := size_neq0 N; have q0 : 0 < \sum_(a <- x) a ^+ 2 by rewrite lt_neqAle eq_sym N sumsq_ge0.
  have n1 : 0 < (size x)%:R :> F by rewrite lt_neqAle eq_sym n0 ler0n.
  have S : (\sum_(a <- x) a) ^+ 2 = (1 - nv x) * ((size x)%:R * \sum_(a <- x) a ^+ 2).
  { rewrite /nv sum_dev /np_mean expr2.
    move: N n0; move: (\sum_(a <- x) a ^+ 2) (\sum_(a <- x) a) ((size x)%:R : F) => q s n N n0.
    by fd F; split; exact/eqP. }
  have v0 : 0 <= nv x by rewrite divr_ge0 ?sumsq_ge0 //; apply: sumr_ge0 => a _; apply: sqr_ge0.
  split=> //.
  - apply/hasP; apply: contraNT N => /hasPn H; apply/eqP/sumsq0 => a /H; by rewrite negbK => /eqP.
  - rewrite v0 /= -subr_ge0 -(pmulr_lge0 _ (mulr_gt0 n1 q0)) -S; exact: sqr_ge0.
  - split=> [|H].
    + move/eqP; rewrite /nv mulf_eq0 invr_eq0 (negPf N) orbF => /eqP.
      rewrite -(big_map (fun a => a - np_mean x) xpredT (fun b => b ^+ 2)) => /sumsq_eq0 H a b /(map_f (fun a => a - np_mean x)) /H /eqP.
      by rewrite subr_eq0 => /eqP -> /(map_f (fun a => a - np_mean x)) /H /eqP; rewrite subr_eq0 => /eqP ->.
    + rewrite /nv big_seq big1 ?mul0r // => a ax; suff -> : np_mean x = a by rewrite subrr expr0n.
      rewrite /np_mean (_ : \sum_(b <- x) b = \sum_(b <- x) a); last by apply: eq_big_seq => b bx; exact: H.
      by rewrite big_const_seq count_predT iter_addr_0 -[X in X / _]mulr_natr mulfK.
  - split=> H; first by apply/eqP; rewrite -sqrf_eq0 S H subrr mul0r.
    move: S; rewrite H expr0n /= => /esym/eqP; rewrite mulf_eq0 mulf_eq0 (negPf n0) (negPf N) !orbF subr_eq0.
    by move/eqP.
Qed.
Lemma nvar_scale c x : c != 0 -> nvar [seq c * a | a <- x] = nvar x.
Proof.
  move=> c0; have Q : \sum_(a <- [seq c * a | a <- x]) a ^+ 2 = c ^+ 2 * \sum_(a <- x) a ^+ 2.
  { by rewrite big_map mulr_sumr; apply: eq_bigr => a _; rewrite exprMn. }
  rewrite !nvarE Q mulf_eq0 sqrf_eq0 (negPf c0) /=; case: ifP => // _; congr Some; rewrite /nv Q.
  have M : np_mean [seq c * a | a <- x] = c * np_mean x by rewrite np_mean_map -mulr_sumr mulrA.
  rewrite M big_map; under eq_bigr do rewrite -mulrBr exprMn.
  by rewrite -mulr_sumr invfM mulrACA divff ?mul1r // expf_neq0.
Qed.

Lemma normalized_var_spec (a b : nat) (X : 'M[F]_(a, b)) :
  [/\ exists2 r, normalized_var X None = Ok [:: r] & normalised [seq X i j | i <- enum 'I_a, j <- enum 'I_b] r,
      forall k, k = Z0 \/ k = Zneg (xO xH) -> exists2 r, normalized_var X (Some k) = Ok [seq r j | j <- enum 'I_b] &
        forall j, normalised [seq X i j | i <- enum 'I_a] (r j) &
      forall k, k = Zpos xH \/ k = Zneg xH -> exists2 r, normalized_var X (Some k) = Ok [seq r i | i <- enum 'I_a] &
        forall i, normalised [seq X i j | j <- enum 'I_b] (r i)].
Proof.
  split; first by eexists; [reflexivity|exact: nvar_normalised].
  - move=> k H; exists (fun j => nvar [seq X i j | i <- enum 'I_a]); last by move=> j; exact: nvar_normalised.
    by case: H => ->.
  - move=> k H; exists (fun i => nvar [seq X i j | j <- enum 'I_b]); last by move=> j; exact: nvar_normalised.
    by case: H => ->.
Qed.
Lemma nvar_scale_map (T : Type) (f g : T -> F) (s : seq T) c : c != 0 -> (forall t, f t = c * g t) ->
  nvar (map f s) = nvar (map g s).
Proof. by move=> c0 H; rewrite -[in RHS](nvar_scale (map g s) c0) -map_comp; rewrite (eq_map H). Qed.
Lemma normalized_var_scale (a b : nat) c (X : 'M[F]_(a, b)) axis : c != 0 ->
  normalized_var (c *: X) axis = normalized_var X axis.
Proof.
  move=> c0; rewrite /normalized_var; case: axis => [k|].
  - case: ifP => _.
    + by congr Ok; apply: eq_map => j; apply: (nvar_scale_map _ c0) => i; rewrite mxE.
    + by case: ifP => _ //; congr Ok; apply: eq_map => i; apply: (nvar_scale_map _ c0) => j; rewrite mxE.
  - rewrite -(nvar_scale [seq X i j | i <- enum _, j <- enum _] c0) map_allpairs.
    by do 3!f_equal; apply: eq_allpairs => i j; rewrite mxE.
Qed.
End Nvar.

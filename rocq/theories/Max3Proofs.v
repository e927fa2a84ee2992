(** maximally_orient and the I-CPDAGs are the unions of their extensions. *)
From Coq Require Import List Arith ZArith Lia Bool Permutation.
Import ListNotations.
From Verif Require Import Base GraphModel GraphSpec TopoProofs BasicProofs DTProofs CompelledProofs CpdagProofs EnumProofs
  MeekProofs MaxProofs Max2Proofs.

(** Every edge of M occurs in an extension of M. *)
Definition tight (p : nat) (M : mat) : Prop :=
  forall a b, edge M a b -> exists D, dag01 p D /\ consistent_ext D M /\ edge D a b.

Lemma closed_tight p M D0 : square p M -> loopless M -> (forall i j, und M i j -> ~ meek M i j) ->
  square p D0 -> consistent_ext D0 M -> tight p M.
Proof.
  intros SM LM CM SD CD a b E. destruct (edge_dec M b a) as [E'|N].
  - apply (meek_both SM LM CM SD CD). split; auto.
  - destruct (ext_of SD CD) as (r & Hr). destruct (dag_of_ext SM LM Hr) as (H1 & H2).
    exists (dag_of M r). split; auto. split; auto. apply H2. split; auto.
Qed.

Lemma ext_edge M D a b : consistent_ext D M -> edge D a b -> edge M a b.
Proof.
  intros (AD & SK & _ & DE) E. destruct (edge_dec M a b) as [|N]; auto. exfalso.
  assert (adjacent M a b) as [|E'] by (apply (SK a b); now left); [contradiction|].
  apply (acyclic_asym _ _ _ AD E). apply DE. split; auto.
Qed.

Lemma tight_eq p M M' : square p M -> binary M -> square p M' -> binary M' -> tight p M -> tight p M' ->
  (forall D, dag01 p D -> (consistent_ext D M <-> consistent_ext D M')) -> M = M'.
Proof.
  intros S1 B1 S2 B2 T1 T2 HX.
  assert (F : forall i j, edge M i j <-> edge M' i j).
  { intros i j. split; intros E.
    - destruct (T1 _ _ E) as (D & HD & CD & ED). apply HX in CD; auto. now apply (ext_edge M' D).
    - destruct (T2 _ _ E) as (D & HD & CD & ED). apply HX in CD; auto. now apply (ext_edge M D). }
  apply (mat_ext (p := p)); auto. intros i j _ _. specialize (F i j). unfold edge in F.
  destruct (B1 i j) as [E|E], (B2 i j) as [E'|E']; rewrite E, E' in *; auto; exfalso; intuition congruence.
Qed.

Lemma maximally_orient_tight (h : hord) p P M : square p P -> loopless P -> maximally_orient h P = Ok M ->
  square p M /\ (binary P -> binary M) /\ loopless M /\ tight p M /\
  (forall D, consistent_ext D M <-> consistent_ext D P) /\ exists D, dag01 p D /\ consistent_ext D P.
Proof.
  intros SP LP E. destruct (maximally_orient_spec h p P SP LP) as [(E' & _)|(M' & E' & (D & SD & CD) & HR & HC)];
    [congruence|].
  assert (M' = M) as -> by congruence. pose proof (refines_loopless _ _ _ HR LP) as LM.
  assert (SM : square p M) by apply HR.
  assert (CM : consistent_ext D M) by (now apply (r_ext _ _ _ HR)).
  split; auto. split; [apply HR|]. split; auto. split; [now apply (closed_tight p M D)|].
  split; [intros X; symmetry; apply (r_ext _ _ _ HR)|].
  destruct (ext_of SD CM) as (r & Hr). destruct (dag_of_ext SM LM Hr) as (H1 & H2).
  exists (dag_of M r). split; auto. now apply (r_ext _ _ _ HR).
Qed.

Lemma maximally_orient_union (h : hord) p P M : square p P -> binary P -> loopless P ->
  maximally_orient h P = Ok M ->
  square p M /\ binary M /\ forall i j, edge M i j <-> exists D, dag01 p D /\ consistent_ext D P /\ edge D i j.
Proof.
  intros SP BP LP E. destruct (maximally_orient_tight h p P M SP LP E) as (SM & BM & _ & TM & XM & _).
  split; auto. split; auto. intros i j. split.
  - intros Eij. destruct (TM _ _ Eij) as (D & HD & CD & ED). exists D. split; auto. split; auto. now apply XM.
  - intros (D & _ & CD & ED). apply (ext_edge M D); auto. now apply XM.
Qed.

Lemma maximally_orient_maximal (h : hord) p P M i j : square p P -> binary P -> loopless P ->
  maximally_orient h P = Ok M ->
  (und M i j <-> (exists D, dag01 p D /\ consistent_ext D P /\ edge D i j) /\
                 (exists D, dag01 p D /\ consistent_ext D P /\ edge D j i)) /\
  (dir M i j <-> (exists D, dag01 p D /\ consistent_ext D P) /\
                 forall D, dag01 p D -> consistent_ext D P -> edge D i j).
Proof.
  intros SP BP LP E. destruct (maximally_orient_union h p P M SP BP LP E) as (SM & BM & HU).
  destruct (maximally_orient_tight h p P M SP LP E) as (_ & _ & _ & _ & XM & HD).
  split; [unfold und; now rewrite !HU|]. split.
  - intros HM. split; auto. intros D _ CD. apply XM in CD. now apply CD.
  - intros (_ & HA). split.
    + destruct HD as (D & D1 & D2). apply HU. exists D. auto.
    + rewrite HU. intros (D & D1 & D2 & D3). pose proof (HA D D1 D2) as D4.
      destruct D2 as (AD & _). now apply (acyclic_asym _ _ _ AD D3).
Qed.

Lemma maximally_orient_canonical (h h' : hord) p P P' : square p P -> binary P -> loopless P ->
  square p P' -> binary P' -> loopless P' ->
  (forall D, dag01 p D -> (consistent_ext D P <-> consistent_ext D P')) ->
  maximally_orient h P = maximally_orient h' P'.
Proof.
  intros SP BP LP SP' BP' LP' HX.
  destruct (maximally_orient_spec h p P SP LP) as [(E & N)|(M & E & _)];
    destruct (maximally_orient_spec h' p P' SP' LP') as [(E' & N')|(M' & E' & _)]; rewrite E, E'; auto.
  - exfalso. destruct (maximally_orient_tight h' p P' M' SP' LP' E') as (_ & _ & _ & _ & _ & D & D1 & D2).
    apply (N D); [apply D1 | now apply HX].
  - exfalso. destruct (maximally_orient_tight h p P M SP LP E) as (_ & _ & _ & _ & _ & D & D1 & D2).
    apply (N' D); [apply D1 | now apply HX].
  - f_equal. destruct (maximally_orient_tight h p P M SP LP E) as (S1 & B1 & _ & T1 & X1 & _).
    destruct (maximally_orient_tight h' p P' M' SP' LP' E') as (S2 & B2 & _ & T2 & X2 & _).
    apply (tight_eq p); auto. intros D HD. rewrite X1, X2. auto.
Qed.

Lemma maximally_orient_idempotent (h h' : hord) p P M : square p P -> binary P -> loopless P ->
  maximally_orient h P = Ok M -> maximally_orient h' M = Ok M.
Proof.
  intros SP BP LP E. rewrite <- E.
  destruct (maximally_orient_tight h p P M SP LP E) as (S1 & B1 & L1 & _ & X1 & _).
  apply (maximally_orient_canonical h' h p); auto.
Qed.

(** A CPDAG is already maximally oriented. *)
Lemma cpdag_tight (h : hord) p G C : square p G -> nonneg G -> acyclic G -> dag_to_cpdag h G = Ok C -> tight p C.
Proof.
  intros SG NG AG E a b Eab. destruct (dag_to_cpdag_is h p G SG NG AG) as (C' & E' & HC).
  assert (C' = C) as -> by congruence.
  destruct (dag_to_cpdag_spec h p G SG NG AG) as (C' & E'' & _ & _ & HU).
  assert (C' = C) as -> by congruence.
  apply HU in Eab. destruct Eab as (D & HD & HM & ED). exists D. split; auto. split; auto.
  apply (cpdag_extensions p G C D); auto; [apply HD|]. split; [apply HD | auto].
Qed.

Lemma ic_loop_tight (h : hord) p : forall es P M, square p P -> loopless P -> tight p P ->
  (forall x y, In (x, y) es -> x < p /\ y < p) -> ic_loop h es P = Ok M -> tight p M.
Proof.
  induction es as [|(x & y) es IH]; intros P M SP LP TP Hes E; simpl in E.
  - now inversion E; subst.
  - destruct (Hes x y) as (Hx & Hy); [simpl; auto|].
    destruct (maximally_orient h (upd P y x 0)) as [P'|e] eqn:EP; cbn [bind] in E; [|discriminate].
    assert (loopless (upd P y x 0)) as L1.
    { intros i Q. apply (get_upd0_edge p) in Q; auto. now apply (LP i). }
    destruct (maximally_orient_tight h p _ _ (upd_square _ _ _ SP) L1 EP) as (S2 & _ & L2 & T2 & _).
    apply (IH P' M); auto. intros a b Hab. apply Hes. simpl; auto.
Qed.

Lemma dag_to_icpdag_tight (h : hord) p G I M : square p G -> nonneg G -> acyclic G ->
  dag_to_icpdag h G I = Ok M -> tight p M.
Proof.
  intros SG NG AG E. unfold dag_to_icpdag in E.
  destruct (dag_to_cpdag_is h p G SG NG AG) as (C & EC & HC). rewrite EC in E. cbn [bind] in E.
  pose proof HC as (SC & BC & _). pose proof (cpdag_loopless p G C HC) as LC.
  destruct (ic_loop h _ C) as [M'|e] eqn:EL; cbn [bind] in E; [|discriminate].
  destruct (is_consistent_extension h G M') as [c|e]; cbn [bind] in E; [|discriminate].
  destruct c; [|discriminate]. inversion E; subst M'.
  apply (ic_loop_tight h p _ C M) in EL; auto.
  - now apply (cpdag_tight h p G).
  - intros x y Hin. apply in_rev in Hin. apply in_flat_map in Hin. destruct Hin as (i & _ & Hin).
    apply in_app_iff in Hin. destruct Hin as [Hin|Hin]; apply in_map_iff in Hin; destruct Hin as (j & Q & Hj);
      inversion Q; subst; apply ho_In in Hj.
    + apply (ch_In _ _ _ _ SG) in Hj. now apply (edge_lt p G); [|apply Hj].
    + apply (pa_In _ _ _ _ SG) in Hj. now apply (edge_lt p G); [|apply Hj].
Qed.

Lemma dag_to_icpdag_union (h : hord) p G I : square p G -> nonneg G -> acyclic G ->
  exists M, dag_to_icpdag h G I = Ok M /\ square p M /\ binary M /\
    forall i j, edge M i j <-> exists D, dag01 p D /\ imarkov_equiv I G D /\ edge D i j.
Proof.
  intros SG NG AG. destruct (dag_to_icpdag_spec h p G I SG NG AG) as (M & E & SM & BM & LM & CM & XM).
  pose proof (dag_to_icpdag_tight h p G I M SG NG AG E) as TM.
  exists M. split; auto. split; auto. split; auto. intros i j. split.
  - intros Eij. destruct (TM _ _ Eij) as (D & HD & CD & ED). exists D. split; auto. split; auto.
    apply XM in CD; [tauto | apply HD].
  - intros (D & HD & CD & ED). apply (ext_edge M D); auto. apply XM; [apply HD|]. split; [apply HD | auto].
Qed.

Lemma imarkov_refl I G : imarkov_equiv I G G.
Proof. split; [apply markov_equiv_refl|]. intros v _ i. tauto. Qed.
Lemma imarkov_trans I A B C : imarkov_equiv I A B -> imarkov_equiv I B C -> imarkov_equiv I A C.
Proof.
  intros (H1 & H2) (H3 & H4). split; [now apply (markov_equiv_trans A B C)|]. intros v Hv i.
  now rewrite (H2 v Hv i), (H4 v Hv i).
Qed.
Lemma imarkov_sym I A B : imarkov_equiv I A B -> imarkov_equiv I B A.
Proof.
  intros ((H1 & H2) & H3). split; [split|].
  - intros i j. symmetry. apply H1.
  - intros i c j. symmetry. apply H2.
  - intros v Hv i. symmetry. now apply H3.
Qed.

(** Two DAGs have the same I-CPDAG iff they are I-Markov equivalent; the order and multiplicity of the targets is
    irrelevant. *)
Lemma dag_to_icpdag_canonical (h h' : hord) p G G' I I' : square p G -> nonneg G -> acyclic G ->
  square p G' -> nonneg G' -> acyclic G' -> (forall v, In v I <-> In v I') ->
  (dag_to_icpdag h G I = dag_to_icpdag h' G' I' <-> imarkov_equiv I G G').
Proof.
  intros SG NG AG SG' NG' AG' HI.
  assert (HII : forall A B, imarkov_equiv I A B <-> imarkov_equiv I' A B).
  { intros A B. unfold imarkov_equiv. split; intros (H1 & H2); split; auto; intros v Hv; apply H2; now apply HI. }
  destruct (dag_to_icpdag_spec h p G I SG NG AG) as (M & E & SM & BM & LM & CM & XM).
  destruct (dag_to_icpdag_spec h' p G' I' SG' NG' AG') as (M' & E' & SM' & BM' & LM' & CM' & XM').
  rewrite E, E'. split.
  - intros Q. inversion Q; subst M'. apply XM in CM'; auto. tauto.
  - intros HM. f_equal. apply (tight_eq p); auto.
    + now apply (dag_to_icpdag_tight h p G I).
    + now apply (dag_to_icpdag_tight h' p G' I').
    + intros D HD. rewrite XM, XM' by apply HD. rewrite <- HII. split; intros (AD & Q); split; auto.
      * apply (imarkov_trans I G' G D); auto. now apply imarkov_sym.
      * now apply (imarkov_trans I G G' D).
Qed.

Lemma dag_to_icpdag_fixpoint (h h' : hord) p G I : square p G -> nonneg G -> acyclic G ->
  exists M, dag_to_icpdag h G I = Ok M /\ maximally_orient h' M = Ok M.
Proof.
  intros SG NG AG. destruct (dag_to_icpdag_spec h p G I SG NG AG) as (M & E & SM & BM & LM & CM & XM).
  exists M. split; auto.
  destruct (maximally_orient_spec h' p M SM LM) as [(_ & N)|(M' & E' & _)]; [exfalso; now apply (N G)|].
  rewrite E'. f_equal. destruct (maximally_orient_tight h' p M M' SM LM E') as (S2 & B2 & _ & T2 & X2 & _).
  apply (tight_eq p); auto.
  - now apply (dag_to_icpdag_tight h p G I).
Qed.

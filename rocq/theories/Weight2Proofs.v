(** The functions for PDAGs on arrays of weights. *)
From Coq Require Import List Arith ZArith Lia Bool Permutation.
Import ListNotations.
From Verif Require Import Base GraphModel GraphSpec WeightSpec RenameSpec TopoProofs BasicProofs DTProofs CpdagProofs EnumProofs MeekProofs
  Max3Proofs RenameProofs WeightProofs EdgeProofs.

(** Arrays with the same edges have the same extensions *)
Section Edges.
Variables P Q : mat.
Hypothesis E : forall i j, edge P i j <-> edge Q i j.
Lemma und_edges i j : und P i j <-> und Q i j.
Proof. unfold und. now rewrite !E. Qed.
Lemma dir_edges i j : dir P i j <-> dir Q i j.
Proof. unfold dir. now rewrite !E. Qed.
Lemma adjacent_edges i j : adjacent P i j <-> adjacent Q i j.
Proof. unfold adjacent. now rewrite !E. Qed.
Lemma vstruct_edges i c j : vstruct P i c j <-> vstruct Q i c j.
Proof. unfold vstruct. now rewrite !dir_edges, adjacent_edges. Qed.
Lemma loopless_edges : loopless P <-> loopless Q.
Proof. unfold loopless. split; intros H i; [rewrite <- E|rewrite E]; auto. Qed.
Lemma ext_edges D : consistent_ext D P <-> consistent_ext D Q.
Proof.
  unfold consistent_ext, same_skeleton, same_vstructs. split; intros (A & S & V & O); split; auto; (split; [|split]); intros.
  - now rewrite <- adjacent_edges.
  - now rewrite <- vstruct_edges.
  - now apply O, dir_edges.
  - now rewrite adjacent_edges.
  - now rewrite vstruct_edges.
  - now apply O, dir_edges.
Qed.
End Edges.

(** pdag_to_dag *)
Lemma pdag_to_dag_weights (h : hord) p P G : square p P -> loopless P -> pdag_to_dag h P = Ok G ->
  square p G /\ consistent_ext G P /\ (forall i j, dir P i j -> get G i j = get P i j) /\
  (forall i j, und P i j -> edge G i j -> get G i j = 1%Z).
Proof.
  intros SP LP EG. pose proof (pdag_to_dag_spec h p P SP LP) as H. rewrite EG in H. destruct H as (SG & CE & V).
  split; auto. split; auto. split.
  - intros i j D. destruct (V i j) as [->|((_ & N) & _)]; [|destruct D; contradiction].
    rewrite (only_directed_get _ _ _ _ SP). destruct D as [D1 D2]. unfold edge in *.
    destruct (Z.eqb_spec (get P j i) 0); [|contradiction]. unfold nz. destruct (Z.eqb_spec (get P i j) 0); [contradiction|auto].
  - intros i j (U1 & U2) Eg. destruct (V i j) as [H|(_ & H)]; auto. exfalso. apply Eg. rewrite H, (only_directed_get _ _ _ _ SP).
    unfold edge in *. destruct (Z.eqb_spec (get P j i) 0); [contradiction|]. now rewrite andb_false_r.
Qed.

(** maximally_orient only deletes entries *)
Definition thinned (P M : mat) : Prop := forall i j, get M i j = get P i j \/ get M i j = 0%Z.
Lemma thinned_trans P M N : thinned P M -> thinned M N -> thinned P N.
Proof. intros H K i j. destruct (K i j) as [->|]; auto. Qed.
Lemma thinned_upd p P x y : square p P -> thinned P (upd P x y 0).
Proof.
  intros SP i j. unfold upd. rewrite (square_length SP), get_mk'.
  destruct (Nat.ltb_spec i p), (Nat.ltb_spec j p); simpl; auto. destruct (_ && _); auto.
Qed.
Lemma mo_for_thinned p es : forall P b, square p P -> square p (fst (mo_for es P b)) /\ thinned P (fst (mo_for es P b)).
Proof.
  induction es as [|[i j] es IH]; intros P b SP; simpl; [split; auto; intros ? ?; auto|].
  destruct (rules i j P); [|destruct (rules j i P)]; auto;
    (match goal with |- context [mo_for es (upd P ?x ?y 0) true] =>
       destruct (IH (upd P x y 0) true (upd_square _ _ _ SP)) as [S1 T1]; split; auto;
       eapply thinned_trans; [apply (thinned_upd p P x y SP)|exact T1] end).
Qed.
Lemma mo_loop_thinned p fuel : forall P M, square p P -> mo_loop fuel P = Ok M -> thinned P M.
Proof.
  induction fuel as [|f IH]; intros P M SP; simpl; [discriminate|].
  destruct (mo_for_thinned p (undirected_edges P) P false SP) as [S1 T1]. destruct (mo_for _ P false) as [P1 b]. simpl in *.
  destruct b.
  - intros E. eapply thinned_trans; [exact T1|]. now apply IH.
  - intros [= <-]. exact T1.
Qed.
Lemma maximally_orient_thinned (h : hord) p P M : square p P -> maximally_orient h P = Ok M -> thinned P M.
Proof.
  intros SP. unfold maximally_orient. destruct (pdag_to_dag h P); cbn [bind]; [|discriminate]. now apply (mo_loop_thinned p).
Qed.
Lemma thinned_eq p P M N : square p M -> square p N -> thinned P M -> thinned P N -> (forall i j, edge M i j <-> edge N i j) -> M = N.
Proof.
  intros SM SN TM TN E. apply mat_ext with p; auto. intros i j _ _. specialize (E i j). unfold edge in E.
  destruct (TM i j) as [H|H], (TN i j) as [H'|H']; rewrite H, H' in *; auto; destruct (Z.eq_dec (get P i j) 0); auto; tauto.
Qed.

Lemma maximally_orient_weights (h : hord) p P : square p P -> loopless P ->
  (maximally_orient h P = Err ValueError /\ forall D, square p D -> ~ consistent_ext D P) \/
  (exists M, maximally_orient h P = Ok M /\ (exists D, square p D /\ consistent_ext D P) /\
     square p M /\ (forall i j, edge M i j -> get M i j = get P i j) /\ same_skeleton P M /\ same_vstructs P M /\
     (forall a b, edge M a b -> edge P a b) /\ (forall a b, dir P a b -> dir M a b) /\
     (forall D, consistent_ext D M <-> consistent_ext D P) /\
     (forall i j, und M i j -> ~ meek M i j)).
Proof.
  intros HP HL. destruct (maximally_orient_spec h p P HP HL) as [H|(M & E & HD & HR & HC)]; auto.
  right. exists M. split; auto. split; auto. pose proof (maximally_orient_thinned h p P M HP E) as T. destruct HR as [a1 a2 a3 a4 a5 a6 a7].
  split; auto. split; [intros i j Eij; destruct (T i j); auto; contradiction|].
  split; auto. split; auto. split; auto. split; auto. split; auto.
  intros D. symmetry. auto.
Qed.

Lemma tight_edge p P M (h : hord) i j : square p P -> loopless P -> maximally_orient h P = Ok M ->
  (edge M i j <-> exists D, dag01 p D /\ consistent_ext D P /\ edge D i j).
Proof.
  intros SP LP E. destruct (maximally_orient_tight h p P M SP LP E) as (SM & _ & LM & TM & XM & _). split.
  - intros Eij. destruct (TM _ _ Eij) as (D & HD & CD & ED). exists D. split; auto. split; auto. now apply XM.
  - intros (D & _ & CD & ED). apply (ext_edge M D); auto. now apply XM.
Qed.
Lemma maximally_orient_maximal_weights (h : hord) p P M i j : square p P -> loopless P -> maximally_orient h P = Ok M ->
  (und M i j <-> (exists D, dag01 p D /\ consistent_ext D P /\ edge D i j) /\
                 (exists D, dag01 p D /\ consistent_ext D P /\ edge D j i)) /\
  (dir M i j <-> (exists D, dag01 p D /\ consistent_ext D P) /\
                 forall D, dag01 p D -> consistent_ext D P -> edge D i j).
Proof.
  intros SP LP E. pose proof (fun i j => tight_edge p P M h i j SP LP E) as HU.
  destruct (maximally_orient_tight h p P M SP LP E) as (_ & _ & _ & _ & XM & HD).
  split; [unfold und; now rewrite !HU|]. split.
  - intros HM. split; auto. intros D _ CD. apply XM in CD. now apply CD.
  - intros (_ & HA). split.
    + destruct HD as (D & D1 & D2). apply HU. exists D. auto.
    + rewrite HU. intros (D & D1 & D2 & D3). pose proof (HA D D1 D2) as D4.
      destruct D2 as (AD & _). now apply (acyclic_asym _ _ _ AD D3).
Qed.
Lemma maximally_orient_error (h : hord) p P e : square p P -> loopless P -> maximally_orient h P = Err e ->
  e = ValueError /\ forall D, square p D -> ~ consistent_ext D P.
Proof.
  intros SP LP E. destruct (maximally_orient_spec h p P SP LP) as [(E' & N)|(M & E' & _)]; rewrite E in E'; [|discriminate].
  injection E' as ->. auto.
Qed.
Lemma maximally_orient_canonical_weights (h h' : hord) p P P' : square p P -> loopless P -> square p P' -> loopless P' ->
  (forall D, dag01 p D -> (consistent_ext D P <-> consistent_ext D P')) ->
  match maximally_orient h P, maximally_orient h' P' with
  | Ok M, Ok M' => forall i j, edge M i j <-> edge M' i j
  | Err e, Err e' => e = ValueError /\ e' = ValueError
  | _, _ => False
  end.
Proof.
  intros SP LP SP' LP' X. destruct (maximally_orient h P) as [M|e] eqn:E, (maximally_orient h' P') as [M'|e'] eqn:E'.
  - intros i j. rewrite (tight_edge p P M h), (tight_edge p P' M' h') by auto.
    split; intros (D & D1 & D2 & D3); exists D; split; auto; split; auto; now apply X.
  - destruct (maximally_orient_error h' p P' e' SP' LP' E') as [_ N].
    destruct (maximally_orient_tight h p P M SP LP E) as (_ & _ & _ & _ & _ & D & D1 & D2).
    apply (N D); [apply D1|now apply X].
  - destruct (maximally_orient_error h p P e SP LP E) as [_ N].
    destruct (maximally_orient_tight h' p P' M' SP' LP' E') as (_ & _ & _ & _ & _ & D & D1 & D2).
    apply (N D); [apply D1|now apply X].
  - exact (conj (proj1 (maximally_orient_error h p P e SP LP E)) (proj1 (maximally_orient_error h' p P' e' SP' LP' E'))).
Qed.
Lemma maximally_orient_idempotent_weights (h h' : hord) p P M : square p P -> loopless P ->
  maximally_orient h P = Ok M -> maximally_orient h' M = Ok M.
Proof.
  intros SP LP E. destruct (maximally_orient_tight h p P M SP LP E) as (SM & _ & LM & _ & XM & _).
  pose proof (maximally_orient_canonical_weights h h' p P M SP LP SM LM) as K. rewrite E in K.
  assert (X : forall D, dag01 p D -> (consistent_ext D P <-> consistent_ext D M)) by (intros; symmetry; apply XM).
  specialize (K X). destruct (maximally_orient h' M) as [N|e] eqn:EN; [|contradiction]. f_equal.
  destruct (maximally_orient_tight h' p M N SM LM EN) as (SN & _).
  apply (thinned_eq p M); auto.
  - eapply maximally_orient_thinned; eassumption.
  - intros i j; auto.
  - intros i j. symmetry. apply K.
Qed.
Lemma orient_rename_weights p f g : renaming p f g -> forall (h h' : hord) P, square p P -> loopless P ->
  renamed p g (maximally_orient h P) (maximally_orient h' (rename p g P)).
Proof.
  intros R h h' P SP LP. assert (SP' := rename_square p g P). assert (LP' := rename_loopless p f g R P SP LP).
  destruct (maximally_orient h P) as [M|e] eqn:E; simpl.
  - destruct (maximally_orient_tight h p P M SP LP E) as (SM & _ & _ & _ & _ & D & D1 & D2).
    destruct (maximally_orient h' (rename p g P)) as [M'|e'] eqn:E'.
    + f_equal. destruct (maximally_orient_tight h' p _ M' SP' LP' E') as (SM' & _).
      apply (thinned_eq p (rename p g P)); auto using rename_square.
      * eapply maximally_orient_thinned; eassumption.
      * intros i j. rewrite !(get_rename p f g R) by auto. apply (maximally_orient_thinned h p P M SP E).
      * intros i j. rewrite (tight_edge p _ M' h' i j SP' LP' E'), (rename_edge p f g R) by auto. rewrite (tight_edge p P M h _ _ SP LP E).
        split; intros (X & X1 & X2 & X3).
        -- exists (rename p f X). split; [now apply (rename_dag01 p g f (renaming_sym p f g R))|].
           split; [apply (ext_rename p f g R); auto; apply X1|].
           rewrite (rename_edge p g f (renaming_sym p f g R)) by apply X1. now rewrite !(fg p f g R).
        -- exists (rename p g X). split; [now apply (rename_dag01 p f g R)|].
           split; [apply (rename_ext p f g R); auto; apply X1|].
           rewrite (rename_edge p f g R) by apply X1. auto.
    + exfalso. destruct (maximally_orient_error h' p _ e' SP' LP' E') as [_ N].
      apply (N (rename p g D)); [apply rename_square|]. apply (rename_ext p f g R); auto; apply D1.
  - destruct (maximally_orient_error h p P e SP LP E) as [-> N].
    destruct (maximally_orient h' (rename p g P)) as [M'|e'] eqn:E'.
    + exfalso. destruct (maximally_orient_tight h' p _ M' SP' LP' E') as (_ & _ & _ & _ & _ & D & D1 & D2).
      apply (N (rename p f D)); [apply rename_square|]. apply (ext_rename p f g R); auto; apply D1.
    + now destruct (maximally_orient_error h' p _ e' SP' LP' E') as [-> _].
Qed.

(** pdag_to_cpdag *)
Lemma pdag_to_cpdag_weights (h : hord) p P : square p P -> nonneg P -> loopless P ->
  (pdag_to_cpdag h P = Err ValueError /\ forall D, square p D -> ~ consistent_ext D P) \/
  (exists C, pdag_to_cpdag h P = Ok C /\ square p C /\ binary C /\
     (exists D, dag01 p D /\ consistent_ext D P) /\
     forall G, square p G -> consistent_ext G P ->
       forall i j, edge C i j <-> exists D, dag01 p D /\ markov_equiv G D /\ edge D i j).
Proof.
  intros SP NP LP. pose proof (sim_to01 p P SP NP) as S. rewrite (sim_pdag_to_cpdag h p P _ S).
  pose proof (to01_edge p P) as TE. assert (X : forall D, consistent_ext D (to01 P) <-> consistent_ext D P) by (intros; apply ext_edges; auto).
  destruct (pdag_to_cpdag_spec h p (to01 P) (to01_square p P SP) (to01_binary p P SP)) as [(E & N)|(C & E & SC & BC & (D & D1 & D2) & HC)].
  - apply (loopless_edges P (to01 P)); auto. intros; symmetry; auto.
  - left. split; auto. intros D SD. rewrite <- X. auto.
  - right. exists C. split; auto. split; auto. split; auto. split; [exists D; split; auto; now apply X|].
    intros G SG CG. apply HC; auto. now apply X.
Qed.
Lemma sim_rename p f g P Q : renaming p f g -> sim p P Q -> sim p (rename p g P) (rename p g Q).
Proof.
  intros R (SP & SQ & NP & NQ & E). split; [apply rename_square|]. split; [apply rename_square|].
  split; [now apply (rename_nonneg p f g R)|]. split; [now apply (rename_nonneg p f g R)|].
  intros i j. rewrite !(get_rename p f g R) by auto. apply E.
Qed.
Lemma pdag_cpdag_rename_weights p f g : renaming p f g -> forall (h h' : hord) P, square p P -> nonneg P -> loopless P ->
  renamed p g (pdag_to_cpdag h P) (pdag_to_cpdag h' (rename p g P)).
Proof.
  intros R h h' P SP NP LP. pose proof (sim_to01 p P SP NP) as S.
  rewrite (sim_pdag_to_cpdag h p P _ S), (sim_pdag_to_cpdag h' p _ _ (sim_rename p f g _ _ R S)).
  apply (pdag_cpdag_rename p f g R); [now apply to01_square|now apply (to01_binary p)|].
  apply (loopless_edges P (to01 P)); auto. intros; symmetry; now apply (to01_edge p).
Qed.

(** pdag_to_icpdag *)
Lemma pdag_to_icpdag_weights (h : hord) p P I : square p P -> nonneg P -> loopless P ->
  (((exists v j, In v I /\ und P v j) \/ (forall D, square p D -> ~ consistent_ext D P)) /\
   pdag_to_icpdag h P I = Err ValueError) \/
  ((forall v j, In v I -> ~ und P v j) /\
   exists G M, dag01 p G /\ consistent_ext G P /\ pdag_to_icpdag h P I = Ok M /\
     square p M /\ binary M /\ loopless M /\
     (forall D, square p D -> (consistent_ext D M <-> acyclic D /\ imarkov_equiv I G D)) /\
     (forall D, square p D -> consistent_ext D P -> consistent_ext D M)).
Proof.
  intros SP NP LP. pose proof (sim_to01 p P SP NP) as S. rewrite (sim_pdag_to_icpdag h p P _ I S).
  assert (TE : forall i j, edge (to01 P) i j <-> edge P i j) by (intros; now apply (to01_edge p)).
  pose proof (ext_edges _ _ TE) as X. pose proof (und_edges _ _ TE) as U.
  assert (LT : loopless (to01 P)) by now apply (loopless_edges _ _ TE).
  destruct (pdag_to_icpdag_spec h p (to01 P) I (to01_square p P SP) (to01_binary p P SP) LT)
    as [([(v & j & Hv & Hu)|N] & E)|(N & G & M & DG & CG & E & SM & BM & LM & H1 & H2)].
  - left. split; auto. left. exists v, j. split; auto. now apply U.
  - left. split; auto. right. intros D SD. rewrite <- X. auto.
  - right. split; [intros v j Hv Hu; apply (N v j); auto; now apply U|].
    exists G, M. split; auto. split; [now apply X|]. split; auto. split; auto. split; auto. split; auto. split; auto.
    intros D SD CD. apply H2; auto. now apply X.
Qed.
(** Two extensions of a PDAG without undirected edges at the targets are in the same class. *)
Lemma ext_imarkov P G D I : consistent_ext G P -> consistent_ext D P -> (forall v j, In v I -> ~ und P v j) -> imarkov_equiv I G D.
Proof.
  intros (AG & SG & VG & OG) (AD & SD & VD & OD) N. split; [split|].
  - intros i j. rewrite <- (SG i j). apply SD.
  - intros i c j. rewrite <- (VG i c j). apply VD.
  - assert (K : forall A, acyclic A -> same_skeleton P A -> (forall i j, dir P i j -> edge A i j) -> forall v i, In v I -> (edge A i v <-> dir P i v)).
    { intros A AA SA OA v i Hv. split; [|apply OA]. intros E. assert (adjacent P i v) as [H|H] by (apply SA; now left).
      - split; auto. intros H'. apply (N v i); auto. split; auto.
      - exfalso. destruct (edge_dec P i v) as [H'|H'].
        + apply (N v i); auto. split; auto.
        + apply (acyclic_asym _ _ _ AA E). apply OA. split; auto. }
    intros v Hv i. rewrite (K G), (K D) by auto. reflexivity.
Qed.
Lemma pdag_icpdag_rename p f g : renaming p f g -> forall (h h' : hord) P I, square p P -> nonneg P -> loopless P ->
  renamed p g (pdag_to_icpdag h P I) (pdag_to_icpdag h' (rename p g P) (map f I)).
Proof.
  intros R h h' P I SP NP LP. assert (SP' := rename_square p g P). assert (LP' := rename_loopless p f g R P SP LP).
  assert (NP' := rename_nonneg p f g R P SP NP). unfold pdag_to_icpdag.
  assert (B : forall (k : hord) A J, square p A -> existsb (fun i => 0 <? length (neighbors i A)) (k 0 J) = true <-> exists v j, In v J /\ und A v j).
  { intros k A J SA. rewrite existsb_exists. split.
    - intros (v & Hv & L). apply length_pos in L. destruct L as (j & Hj). exists v, j. rewrite ho_In in Hv. split; auto.
      now apply (neighbors_In _ _ _ _ SA).
    - intros (v & j & Hv & Hj). exists v. rewrite ho_In. split; auto. apply length_pos. exists j. now apply (neighbors_In _ _ _ _ SA). }
  assert (BB : existsb (fun i => 0 <? length (neighbors i (rename p g P))) (h' 0 (map f I)) = existsb (fun i => 0 <? length (neighbors i P)) (h 0 I)).
  { apply eq_true_iff_eq. rewrite !B by auto. split.
    - intros (v & j & Hv & Hu). apply in_map_iff in Hv. destruct Hv as (u & <- & Hv). exists u, (g j). split; auto.
      apply (rename_und p f g R) in Hu; auto. now rewrite (gf p f g R) in Hu.
    - intros (v & j & Hv & Hu). exists (f v), (f j). split; [now apply in_map|]. apply (rename_und p f g R); auto. now rewrite !(gf p f g R). }
  rewrite BB. destruct (existsb _ (h 0 I)) eqn:EB; [reflexivity|].
  assert (N : forall v j, In v I -> ~ und P v j).
  { intros v j Hv Hu. assert (existsb (fun i => 0 <? length (neighbors i P)) (h 0 I) = true) by (apply B; eauto). congruence. }
  pose proof (pdag_to_dag_spec h p P SP LP) as H1. pose proof (pdag_to_dag_spec h' p _ SP' LP') as H2.
  destruct (pdag_to_dag h P) as [G|e] eqn:E1, (pdag_to_dag h' (rename p g P)) as [G'|e'] eqn:E2; cbn [bind].
  - destruct H1 as (SG & CG & _), H2 as (SG' & CG' & _).
    assert (NG : nonneg G).
    { pose proof (sim_pdag_to_dag h p P _ (sim_to01 p P SP NP)) as K. rewrite E1 in K. destruct (pdag_to_dag h (to01 P)); [apply K|contradiction]. }
    assert (NG' : nonneg G').
    { pose proof (sim_pdag_to_dag h' p _ _ (sim_to01 p _ SP' NP')) as K. rewrite E2 in K. destruct (pdag_to_dag h' (to01 (rename p g P))); [apply K|contradiction]. }
    assert (EQ : dag_to_icpdag h' G' (map f I) = dag_to_icpdag h' (rename p g G) (map f I)).
    { apply (dag_to_icpdag_canonical h' h' p G' (rename p g G) (map f I) (map f I)); auto using rename_square.
      - apply CG'.
      - now apply (rename_nonneg p f g R).
      - apply (rename_acyclic p f g R); auto. apply CG.
      - reflexivity.
      - apply (ext_imarkov (rename p g P)); auto.
        + now apply (rename_ext p f g R).
        + intros v j Hv Hu. apply in_map_iff in Hv. destruct Hv as (u & <- & Hv). apply (rename_und p f g R) in Hu; auto.
          rewrite (gf p f g R) in Hu. now apply (N u (g j)). }
    rewrite EQ. now apply (icpdag_rename p f g R).
  - exfalso. destruct H1 as (SG & CG & _), H2 as (_ & K). apply (K (rename p g G)); [apply rename_square|]. now apply (rename_ext p f g R).
  - exfalso. destruct H2 as (SG & CG & _), H1 as (_ & K). apply (K (rename p f G')); [apply rename_square|]. now apply (ext_rename p f g R).
  - destruct H1 as (-> & _), H2 as (-> & _). reflexivity.
Qed.

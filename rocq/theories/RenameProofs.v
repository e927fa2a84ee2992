(** The graph functions do not depend on the names of the variables. *)
From Coq Require Import List Arith ZArith Lia Bool Permutation Relations.
Import ListNotations.
From Verif Require Import Base GraphModel GraphSpec RenameSpec TopoProofs BasicProofs CompelledProofs CpdagProofs EnumProofs MeekProofs Max3Proofs.

Section Rename.
Variables (p : nat) (f g : nat -> nat).
Hypothesis R : renaming p f g.

Lemma fg i : f (g i) = i. Proof. apply R. Qed.
Lemma gf i : g (f i) = i. Proof. apply R. Qed.
Lemma f_lt i : f i < p <-> i < p. Proof. apply R. Qed.
Lemma g_lt i : g i < p <-> i < p. Proof. rewrite <- (f_lt (g i)), fg. reflexivity. Qed.
Lemma g_inj i j : g i = g j -> i = j. Proof. intros E. now rewrite <- (fg i), E, fg. Qed.
Lemma f_inj i j : f i = f j -> i = j. Proof. intros E. now rewrite <- (gf i), E, gf. Qed.
Lemma renaming_sym : renaming p g f.
Proof. repeat split; intros; [apply fg | apply gf | now apply g_lt | now apply g_lt]. Qed.

Lemma rename_square A : square p (rename p g A). Proof. apply mk_square. Qed.
Lemma get_rename A i j : square p A -> get (rename p g A) i j = get A (g i) (g j).
Proof.
  intros SA. unfold rename. rewrite get_mk'. destruct (Nat.ltb_spec i p), (Nat.ltb_spec j p); simpl; auto;
    symmetry; apply (get_out SA); rewrite !g_lt; lia.
Qed.
Lemma rename_edge A i j : square p A -> (edge (rename p g A) i j <-> edge A (g i) (g j)).
Proof. intros SA. unfold edge. rewrite get_rename by auto. reflexivity. Qed.
Lemma rename_edge' A i j : square p A -> (edge (rename p g A) (f i) (f j) <-> edge A i j).
Proof. intros SA. rewrite rename_edge, !gf by auto. reflexivity. Qed.
Lemma rename_nonneg A : square p A -> nonneg A -> nonneg (rename p g A).
Proof. intros SA H i j. rewrite get_rename by auto. apply H. Qed.
Lemma rename_binary A : square p A -> binary A -> binary (rename p g A).
Proof. intros SA H i j. rewrite get_rename by auto. apply H. Qed.
Lemma rename_loopless A : square p A -> loopless A -> loopless (rename p g A).
Proof. intros SA H i. rewrite rename_edge by auto. apply H. Qed.
Lemma rename_adjacent A i j : square p A -> (adjacent (rename p g A) i j <-> adjacent A (g i) (g j)).
Proof. intros SA. unfold adjacent. rewrite !rename_edge by auto. reflexivity. Qed.
Lemma rename_dir A i j : square p A -> (dir (rename p g A) i j <-> dir A (g i) (g j)).
Proof. intros SA. unfold dir. rewrite !rename_edge by auto. reflexivity. Qed.
Lemma rename_und A i j : square p A -> (und (rename p g A) i j <-> und A (g i) (g j)).
Proof. intros SA. unfold und. rewrite !rename_edge by auto. reflexivity. Qed.
Lemma rename_vstruct A i c j : square p A -> (vstruct (rename p g A) i c j <-> vstruct A (g i) (g c) (g j)).
Proof.
  intros SA. unfold vstruct. rewrite !rename_dir, rename_adjacent by auto.
  assert (i <> j <-> g i <> g j) by (split; intros H E; apply H; [now apply g_inj | now rewrite E]). tauto.
Qed.
Lemma rename_acyclic A : square p A -> acyclic A -> acyclic (rename p g A).
Proof.
  intros SA H i C. apply (H (g i)).
  assert (HC : forall a b, clos_trans nat (edge (rename p g A)) a b -> clos_trans nat (edge A) (g a) (g b)).
  { intros a b HC. induction HC as [a b E | a b c _ IH1 _ IH2].
    - apply t_step. now apply rename_edge in E.
    - now apply t_trans with (g b). }
  now apply HC.
Qed.
Lemma rename_dag01 A : dag01 p A -> dag01 p (rename p g A).
Proof. intros (S & B & H). split; [apply rename_square|]. split; [now apply rename_binary | now apply rename_acyclic]. Qed.
Lemma rename_markov A B : square p A -> square p B -> markov_equiv A B -> markov_equiv (rename p g A) (rename p g B).
Proof.
  intros SA SB [H1 H2]. split.
  - intros i j. rewrite !rename_adjacent by auto. apply H1.
  - intros i c j. rewrite !rename_vstruct by auto. apply H2.
Qed.
Lemma rename_parents A B v : square p A -> square p B -> same_parents A B v -> same_parents (rename p g A) (rename p g B) (f v).
Proof. intros SA SB H i. rewrite !rename_edge, gf by auto. apply H. Qed.
Lemma rename_imarkov A B I : square p A -> square p B -> imarkov_equiv I A B ->
  imarkov_equiv (map f I) (rename p g A) (rename p g B).
Proof.
  intros SA SB [H1 H2]. split; [now apply rename_markov|].
  intros v Hv. apply in_map_iff in Hv. destruct Hv as (u & <- & Hu). apply rename_parents; auto.
Qed.
Lemma rename_ext D P : square p D -> square p P -> consistent_ext D P -> consistent_ext (rename p g D) (rename p g P).
Proof.
  intros SD SP (H1 & H2 & H3 & H4). split; [now apply rename_acyclic|]. split; [|split].
  - intros i j. rewrite !rename_adjacent by auto. apply H2.
  - intros i c j. rewrite !rename_vstruct by auto. apply H3.
  - intros i j. rewrite rename_dir, rename_edge by auto. apply H4.
Qed.
Lemma binary_eq A B : square p A -> square p B -> binary A -> binary B -> (forall i j, edge A i j <-> edge B i j) -> A = B.
Proof.
  intros SA SB BA BB H. apply (mat_ext SA SB). intros i j _ _. specialize (H i j). unfold edge in H.
  destruct (BA i j), (BB i j); rewrite H0, H1 in *; auto; exfalso; intuition discriminate.
Qed.
End Rename.

Section Back.
Variables (p : nat) (f g : nat -> nat).
Hypothesis R : renaming p f g.
Local Notation ren := (rename p g).
Local Notation back := (rename p f).
Let R' := renaming_sym p f g R.

Lemma back_rename A : square p A -> back (ren A) = A.
Proof.
  intros SA. apply (mat_ext (rename_square p f _) SA). intros i j _ _.
  rewrite (get_rename p g f R') by apply rename_square. rewrite (get_rename p f g R) by auto.
  now rewrite !(gf p f g R).
Qed.
Lemma rename_back A : square p A -> ren (back A) = A.
Proof.
  intros SA. apply (mat_ext (rename_square p g _) SA). intros i j _ _.
  rewrite (get_rename p f g R) by apply rename_square. rewrite (get_rename p g f R') by auto.
  now rewrite !(fg p f g R).
Qed.
Lemma acyclic_rename A : square p A -> (acyclic (ren A) <-> acyclic A).
Proof.
  intros SA. split; [|now apply (rename_acyclic p f g R)].
  intros H. rewrite <- (back_rename A SA). apply (rename_acyclic p g f R'); auto. apply rename_square.
Qed.
Lemma markov_rename A D : square p A -> square p D -> (markov_equiv (ren A) D <-> markov_equiv A (back D)).
Proof.
  intros SA SD. split; intros H.
  - rewrite <- (back_rename A SA). apply (rename_markov p g f R'); auto. apply rename_square.
  - rewrite <- (rename_back D SD). apply (rename_markov p f g R); auto. apply rename_square.
Qed.
Lemma map_back I : map g (map f I) = I.
Proof. rewrite map_map. rewrite <- (map_id I) at 2. apply map_ext. apply R. Qed.
Lemma imarkov_rename I A D : square p A -> square p D -> (imarkov_equiv (map f I) (ren A) D <-> imarkov_equiv I A (back D)).
Proof.
  intros SA SD. split; intros H.
  - rewrite <- (back_rename A SA), <- (map_back I). apply (rename_imarkov p g f R'); auto. apply rename_square.
  - rewrite <- (rename_back D SD). apply (rename_imarkov p f g R); auto. apply rename_square.
Qed.
Lemma ext_rename D P : square p P -> square p D -> (consistent_ext D (ren P) <-> consistent_ext (back D) P).
Proof.
  intros SP SD. split; intros H.
  - rewrite <- (back_rename P SP). apply (rename_ext p g f R'); auto. apply rename_square.
  - rewrite <- (rename_back D SD). apply (rename_ext p f g R); auto. apply rename_square.
Qed.
Lemma dag01_rename D : dag01 p D -> dag01 p (back D).
Proof. apply (rename_dag01 p g f R'). Qed.

(** The union of a set of DAGs *)
Lemma union_rename (T T' : mat -> Prop) M M' : square p M -> binary M -> square p M' -> binary M' ->
  (forall D, dag01 p D -> (T' D <-> T (back D))) ->
  (forall i j, edge M i j <-> exists D, dag01 p D /\ T D /\ edge D i j) ->
  (forall i j, edge M' i j <-> exists D, dag01 p D /\ T' D /\ edge D i j) -> M' = ren M.
Proof.
  intros SM BM SM' BM' HT HM HM'. apply (binary_eq p); auto using rename_square.
  - now apply (rename_binary p f g R).
  - intros i j. rewrite (rename_edge p f g R), HM, HM' by auto. split.
    + intros (D & DD & TD & E). exists (back D). split; [now apply dag01_rename|]. split; [now apply HT|].
      apply (rename_edge p g f R'); [apply DD|]. now rewrite !(fg p f g R).
    + intros (D & DD & TD & E). exists (ren D). assert (D' := rename_dag01 p f g R D DD). split; auto. split.
      * apply HT; auto. rewrite back_rename; auto. apply DD.
      * apply (rename_edge p f g R); auto. apply DD.
Qed.

Lemma is_dag_rename (h h' : hord) A : square p A -> nonneg A -> is_dag h' (ren A) = is_dag h A.
Proof.
  intros SA NA. destruct (is_dag_spec h p A SA NA) as (b & -> & Hb).
  destruct (is_dag_spec h' p (ren A) (rename_square p g A) (rename_nonneg p f g R A SA NA)) as (b' & -> & Hb').
  rewrite acyclic_rename in Hb' by auto. f_equal. apply eq_true_iff_eq. tauto.
Qed.

Lemma cpdag_rename (h h' : hord) A : square p A -> nonneg A -> renamed p g (dag_to_cpdag h A) (dag_to_cpdag h' (ren A)).
Proof.
  intros SA NA. assert (SA' := rename_square p g A). assert (NA' := rename_nonneg p f g R A SA NA).
  destruct (is_dag_spec h p A SA NA) as ([] & _ & Hb).
  - assert (HA : acyclic A) by now apply Hb. assert (HA' : acyclic (ren A)) by now apply acyclic_rename.
    destruct (dag_to_cpdag_spec h p A SA NA HA) as (C & -> & SC & BC & HC).
    destruct (dag_to_cpdag_spec h' p (ren A) SA' NA' HA') as (C' & -> & SC' & BC' & HC'). simpl. f_equal.
    apply (union_rename (markov_equiv A) (markov_equiv (ren A))); auto. intros D DD. apply markov_rename; auto. apply DD.
  - assert (HA : ~ acyclic A) by (intros Q; apply Hb in Q; discriminate).
    rewrite (dag_to_cpdag_err h p A SA NA HA). simpl. apply (dag_to_cpdag_err h' p); auto. now rewrite acyclic_rename.
Qed.

Lemma icpdag_rename (h h' : hord) A I : square p A -> nonneg A ->
  renamed p g (dag_to_icpdag h A I) (dag_to_icpdag h' (ren A) (map f I)).
Proof.
  intros SA NA. assert (SA' := rename_square p g A). assert (NA' := rename_nonneg p f g R A SA NA).
  destruct (is_dag_spec h p A SA NA) as ([] & _ & Hb).
  - assert (HA : acyclic A) by now apply Hb. assert (HA' : acyclic (ren A)) by now apply acyclic_rename.
    destruct (dag_to_icpdag_union h p A I SA NA HA) as (C & -> & SC & BC & HC).
    destruct (dag_to_icpdag_union h' p (ren A) (map f I) SA' NA' HA') as (C' & -> & SC' & BC' & HC'). simpl. f_equal.
    apply (union_rename (imarkov_equiv I A) (imarkov_equiv (map f I) (ren A))); auto.
    intros D DD. apply imarkov_rename; auto. apply DD.
  - assert (HA : ~ acyclic A) by (intros Q; apply Hb in Q; discriminate).
    rewrite (dag_to_icpdag_err h p A I SA NA HA). simpl. apply (dag_to_icpdag_err h' p); auto. now rewrite acyclic_rename.
Qed.

Lemma orient_rename (h h' : hord) P : square p P -> binary P -> loopless P ->
  renamed p g (maximally_orient h P) (maximally_orient h' (ren P)).
Proof.
  intros SP BP LP. assert (SP' := rename_square p g P). assert (BP' := rename_binary p f g R P SP BP).
  assert (LP' := rename_loopless p f g R P SP LP).
  destruct (maximally_orient_full h p P SP BP LP) as [(E & N)|(M & E & [D0 [S0 X0]] & _)]; rewrite E; simpl.
  - destruct (maximally_orient_full h' p (ren P) SP' BP' LP') as [(E' & _)|(M & _ & [D0 [S0 X0]] & _)]; auto.
    exfalso. apply (N (back D0)); [apply rename_square|]. now apply ext_rename.
  - destruct (maximally_orient_full h' p (ren P) SP' BP' LP') as [(_ & N)|(M' & E' & _)].
    + exfalso. apply (N (ren D0)); [apply rename_square|]. apply (rename_ext p f g R); auto.
    + rewrite E'. f_equal.
      destruct (maximally_orient_union h p P M SP BP LP E) as (SM & BM & HM).
      destruct (maximally_orient_union h' p (ren P) M' SP' BP' LP' E') as (SM' & BM' & HM').
      apply (union_rename (fun D => consistent_ext D P) (fun D => consistent_ext D (ren P))); auto.
      intros D DD. apply ext_rename; auto. apply DD.
Qed.

Lemma pdag_cpdag_rename (h h' : hord) P : square p P -> binary P -> loopless P ->
  renamed p g (pdag_to_cpdag h P) (pdag_to_cpdag h' (ren P)).
Proof.
  intros SP BP LP. assert (SP' := rename_square p g P). assert (BP' := rename_binary p f g R P SP BP).
  assert (LP' := rename_loopless p f g R P SP LP).
  destruct (pdag_to_cpdag_spec h p P SP BP LP) as [(E & N)|(C & E & SC & BC & [D0 [DD0 X0]] & HC)]; rewrite E; simpl.
  - destruct (pdag_to_cpdag_spec h' p (ren P) SP' BP' LP') as [(E' & _)|(C & _ & _ & _ & [D0 [DD0 X0]] & _)]; auto.
    exfalso. apply (N (back D0)); [apply rename_square|]. apply ext_rename; auto. apply DD0.
  - assert (X0' : consistent_ext (ren D0) (ren P)) by (apply (rename_ext p f g R); auto; apply DD0).
    destruct (pdag_to_cpdag_spec h' p (ren P) SP' BP' LP') as [(_ & N)|(C' & -> & SC' & BC' & _ & HC')].
    + exfalso. apply (N (ren D0)); auto. apply rename_square.
    + f_equal. apply (union_rename (markov_equiv D0) (markov_equiv (ren D0))); auto.
      * intros D DD. apply markov_rename; [apply DD0 | apply DD].
      * apply HC; auto. apply DD0.
      * apply HC'; auto. apply rename_square.
Qed.

(** Lists of DAGs *)
Lemma list_rename (T T' : mat -> Prop) l l' : NoDup l -> NoDup l' ->
  (forall D, dag01 p D -> (T' D <-> T (back D))) ->
  (forall D, In D l <-> dag01 p D /\ T D) -> (forall D, In D l' <-> dag01 p D /\ T' D) ->
  Permutation l' (map ren l).
Proof.
  intros ND ND' HT H H'. apply NoDup_Permutation; auto.
  - assert (HI : forall D D', In D l -> In D' l -> ren D = ren D' -> D = D').
    { intros D D' I1 I2 E. apply H in I1, I2. rewrite <- (back_rename D), <- (back_rename D'), E; auto; [apply I2 | apply I1]. }
    clear H H' HT. induction ND as [|D l N ND IH]; simpl; constructor.
    + intros Q. apply in_map_iff in Q. destruct Q as (D' & E & Q). apply N. rewrite (HI D D'); simpl; auto.
    + apply IH. intros; apply HI; simpl; auto.
  - intros D. rewrite H', in_map_iff. split.
    + intros (DD & TD). exists (back D). split; [apply rename_back; apply DD|]. apply H. split; [now apply dag01_rename | now apply HT].
    + intros (D' & <- & Q). apply H in Q. destruct Q as (DD & TD). assert (D1 := rename_dag01 p f g R D' DD).
      split; auto. apply HT; auto. rewrite back_rename; auto. apply DD.
Qed.

Lemma all_dags_rename (h h' : hord) P : square p P -> binary P -> loopless P -> (exists i j, und P i j) \/ acyclic P ->
  renamed_all p g (all_dags h P) (all_dags h' (ren P)).
Proof.
  intros SP BP LP HP. assert (SP' := rename_square p g P). assert (BP' := rename_binary p f g R P SP BP).
  assert (LP' := rename_loopless p f g R P SP LP).
  assert (HP' : (exists i j, und (ren P) i j) \/ acyclic (ren P)).
  { destruct HP as [(i & j & U)|HA]; [left | right; now apply acyclic_rename].
    exists (f i), (f j). apply (rename_und p f g R); auto. now rewrite !(gf p f g R). }
  destruct (all_dags_exact p P SP BP LP h HP) as (l & -> & ND & HL).
  destruct (all_dags_exact p (ren P) SP' BP' LP' h' HP') as (l' & -> & ND' & HL'). simpl. exists l'. split; auto.
  apply (list_rename (fun D => consistent_ext D P) (fun D => consistent_ext D (ren P))); auto.
  intros D DD. apply ext_rename; auto. apply DD.
Qed.

Lemma mec_rename (h h' : hord) A check check' : square p A -> nonneg A -> 0 < p ->
  renamed_all p g (mec h A check) (mec h' (ren A) check').
Proof.
  intros SA NA Hp. assert (SA' := rename_square p g A). assert (NA' := rename_nonneg p f g R A SA NA).
  destruct (mec_spec h p A check SA NA Hp) as [(N & ->)|(HA & l & -> & ND & HL)]; simpl;
  destruct (mec_spec h' p (ren A) check' SA' NA' Hp) as [(N' & ->)|(HA' & l' & -> & ND' & HL')]; auto;
    try (exfalso; rewrite acyclic_rename in *; tauto).
  exists l'. split; auto. apply (list_rename (markov_equiv A) (markov_equiv (ren A))); auto.
  intros D DD. apply markov_rename; auto. apply DD.
Qed.

Lemma imec_rename (h h' : hord) A I check check' : square p A -> nonneg A -> 0 < p ->
  renamed_all p g (imec h A I check) (imec h' (ren A) (map f I) check').
Proof.
  intros SA BA Hp. assert (SA' := rename_square p g A). assert (BA' := rename_nonneg p f g R A SA BA).
  assert (HI : incl (map f I) (seq 0 p) <-> incl I (seq 0 p)).
  { split; intros H i Hi; apply in_seq.
    - assert (Q := H (f i) (in_map f I i Hi)). apply in_seq in Q. destruct (f_lt p f g R i) as [Q' _].
      split; [lia|]. apply Q'. lia.
    - apply in_map_iff in Hi. destruct Hi as (j & <- & Hj). apply H, in_seq in Hj. destruct (f_lt p f g R j) as [_ Q].
      split; [lia|]. apply Q. lia. }
  destruct (imec_spec h p A I check SA BA Hp) as [(N & ->)|(HA & HI1 & l & -> & ND & HL)]; simpl;
  destruct (imec_spec h' p (ren A) (map f I) check' SA' BA' Hp) as [(N' & ->)|(HA' & HI2 & l' & -> & ND' & HL')]; auto;
    try (exfalso; rewrite acyclic_rename, HI in *; tauto).
  exists l'. split; auto. apply (list_rename (imarkov_equiv I A) (imarkov_equiv (map f I) (ren A))); auto.
  intros D DD. apply imarkov_rename; auto. apply DD.
Qed.
End Back.

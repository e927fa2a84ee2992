(** Targets refine the I-CPDAG, and a set of targets identifies G iff it meets every covered edge. *)
From Coq Require Import ZArith List Bool Arith Lia.
Import ListNotations.
From Verif Require Import Base GraphSpec GraphModel TopoProofs CompelledProofs CpdagProofs CoveredProofs Max3Proofs RefineSpec.

Lemma imarkov_incl (I J : list nat) G D : incl I J -> imarkov_equiv J G D -> imarkov_equiv I G D.
Proof. intros H [ME SP]. split; auto. Qed.

Lemma icpdag_refines (h h' : hord) p G I J : square p G -> nonneg G -> acyclic G -> incl I J ->
  exists M N, dag_to_icpdag h G I = Ok M /\ dag_to_icpdag h' G J = Ok N /\ refines N M.
Proof.
  intros SG NG AG HI.
  destruct (dag_to_icpdag_union h p G I SG NG AG) as (M & EM & _ & _ & UM).
  destruct (dag_to_icpdag_union h' p G J SG NG AG) as (N & EN & _ & _ & UN).
  exists M, N. split; auto. split; auto.
  assert (SUB : forall i j, edge N i j -> edge M i j).
  { intros i j E. apply UN in E. destruct E as (D & HD & HE & E). apply UM. exists D. split; auto. split; auto.
    now apply imarkov_incl with J. }
  destruct (to01_dag p G SG AG) as (HD0 & ME0 & ED0).
  assert (HE0 : imarkov_equiv J G (to01 G)) by (split; [auto | intros v _ i; symmetry; apply ED0]).
  assert (SKM : forall i j, adjacent M i j -> adjacent N i j).
  { intros i j HM. assert (A : adjacent G i j).
    { destruct HM as [E|E]; apply UM in E; destruct E as (D & _ & [[SK _] _] & E); apply SK; [now left | now right]. }
    destruct A as [E|E]; [left | right]; apply UN; exists (to01 G); (split; [auto|split; [auto|now apply ED0]]). }
  split; [|split; auto].
  - intros i j. split; auto. intros [E|E]; [left | right]; auto.
  - intros i j [E1 E2]. split; [|intros E; apply E2; auto].
    destruct (SKM i j (or_introl E1)) as [|E]; auto. exfalso. auto.
Qed.

Lemma icpdag_no_targets (h h' : hord) p G : square p G -> nonneg G -> acyclic G ->
  dag_to_icpdag h G [] = dag_to_cpdag h' G.
Proof.
  intros SG NG AG.
  destruct (dag_to_icpdag_union h p G [] SG NG AG) as (M & EM & SM & BM & UM).
  destruct (dag_to_cpdag_spec h' p G SG NG AG) as (C & EC & SC & BC & UC).
  rewrite EM, EC. f_equal. apply (mat_ext (p := p)); auto. intros i j _ _.
  assert (F : edge M i j <-> edge C i j).
  { rewrite UM, UC. split; intros (D & HD & HE & E); exists D; (split; [auto|split; [|auto]]).
    - apply HE.
    - split; [auto | intros v []]. }
  unfold edge in F. destruct (BM i j), (BC i j); lia.
Qed.

(** A DAG all of whose covered edges meet I is alone in its class *)
Lemma class_single p G I : dag01 p G -> (forall x y, covered_edge G x y -> In x I \/ In y I) ->
  forall D, dag01 p D -> imarkov_equiv I G D -> forall i j, edge G i j <-> edge D i j.
Proof.
  intros (SG & BG & AG) HC D (SD & BD & AD) HE.
  enough (T : forall X, square p X -> acyclic X -> imarkov_equiv I X D ->
    (forall x y, covered_edge X x y -> In x I \/ In y I) -> forall i j, edge X i j <-> edge D i j) by (apply T; auto).
  intros X SX AX EX. revert X SX AX EX.
  apply (covered_ind p I D (fun X => (forall x y, covered_edge X x y -> In x I \/ In y I) -> forall i j, edge X i j <-> edge D i j)
    SD AD); auto.
  intros X x y SX AX CX Nx Ny _ H. destruct (H x y CX) as [Q|Q]; tauto.
Qed.

(** Reversing a covered edge away from I gives another member of the class *)
Lemma class_reverse p G I x y : dag01 p G -> covered_edge G x y -> ~ In x I -> ~ In y I ->
  exists D, dag01 p D /\ imarkov_equiv I G D /\ edge D y x.
Proof.
  intros (SG & BG & AG) HC Nx Ny. destruct (covered_lt p G x y SG AG HC) as (Hx & Hy & N).
  exists (reverse G x y). split; [split; [now apply reverse_square|split]|].
  - intros i j. unfold reverse. rewrite (get_upd _ _ _ (upd_square x y 0%Z SG)) by auto.
    destruct (_ && _); auto. rewrite (get_upd _ _ _ SG) by auto. destruct (_ && _); auto.
  - now apply reverse_acyclic with p.
  - split; [split|].
    + now apply reverse_markov with p.
    + intros v Hv i. rewrite (reverse_edge p) by auto. split.
      * intros E. right. split; auto. intros [-> ->]. tauto.
      * intros [[-> ->]|[E _]]; [tauto | auto].
    + rewrite (reverse_edge p) by auto. left. auto.
Qed.

Lemma icpdag_self (h : hord) p G I : dag01 p G ->
  (dag_to_icpdag h G I = Ok G <-> forall D, dag01 p D -> imarkov_equiv I G D -> D = G).
Proof.
  intros HG. destruct HG as (SG & BG & AG).
  destruct (dag_to_icpdag_union h p G I SG (binary_nonneg BG) AG) as (M & EM & SM & BM & UM). rewrite EM. split.
  - intros Q D HD HE. inversion Q; subst M. clear Q.
    assert (SUB : forall i j, edge D i j -> edge G i j) by (intros i j E; apply UM; eauto).
    destruct HD as (SD & BD & AD). apply (mat_ext (p := p)); auto. intros i j _ _.
    assert (F : edge D i j <-> edge G i j).
    { split; auto. intros E. destruct HE as [[SK _] _]. destruct (proj1 (SK i j) (or_introl E)) as [|E']; auto.
      exfalso. now apply (acyclic_asym G i j AG E), SUB. }
    unfold edge in F. destruct (BD i j), (BG i j); lia.
  - intros H. f_equal. apply (mat_ext (p := p)); auto. intros i j _ _.
    assert (F : edge M i j <-> edge G i j).
    { rewrite UM. split.
      - intros (D & HD & HE & E). now rewrite <- (H D HD HE).
      - intros E. exists G. split; [now split|]. split; [apply imarkov_refl | auto]. }
    unfold edge in F. destruct (BM i j), (BG i j); lia.
Qed.

Lemma icpdag_identified (h : hord) p G I : dag01 p G ->
  (dag_to_icpdag h G I = Ok G <-> forall x y, covered_edge G x y -> In x I \/ In y I).
Proof.
  intros HG. rewrite (icpdag_self h p G I HG). split.
  - intros H x y HC. destruct (in_dec Nat.eq_dec x I) as [|Nx]; auto. destruct (in_dec Nat.eq_dec y I) as [|Ny]; auto.
    exfalso. destruct (class_reverse p G I x y HG HC Nx Ny) as (D & HD & HE & E).
    rewrite (H D HD HE) in E. destruct HG as (_ & _ & AG). now apply (acyclic_asym G x y AG (proj1 HC)).
  - intros HC D HD HE. pose proof (class_single p G I HG HC D HD HE) as F. destruct HG as (SG & BG & _), HD as (SD & BD & _).
    apply (mat_ext (p := p)); auto. intros i j _ _. specialize (F i j). unfold edge in F. destruct (BD i j), (BG i j); lia.
Qed.

(** The edges that stay undirected: those reversed by some sequence of covered reversals; the covered edges themselves *)
Lemma covered_und (h : hord) p G I M x y : dag01 p G -> dag_to_icpdag h G I = Ok M -> covered_edge G x y ->
  (und M x y <-> ~ In x I /\ ~ In y I).
Proof.
  intros HG EM HC. pose proof HG as (SG & BG & AG).
  destruct (dag_to_icpdag_union h p G I SG (binary_nonneg BG) AG) as (M' & EM' & SM & BM & UM).
  assert (M' = M) as -> by congruence. clear EM'. split.
  - intros [_ E]. apply UM in E. destruct E as (D & (_ & _ & AD) & [[SK _] SP] & E).
    split; intros Q.
    + apply (SP x Q y) in E. now apply (acyclic_asym G x y AG (proj1 HC)).
    + pose proof (proj1 (SP y Q x) (proj1 HC)) as E'. now apply (acyclic_asym D x y AD).
  - intros [Nx Ny]. split; apply UM.
    + exists G. split; auto. split; [apply imarkov_refl | exact (proj1 HC)].
    + now apply class_reverse.
Qed.

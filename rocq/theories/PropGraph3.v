(** Properties C09-C11, C32, C33 and C70. *)
From Coq Require Import List Arith ZArith Permutation Relations.
Import ListNotations.
From Verif Require Import Base GraphModel GraphSpec PathProofs EdgeProofs.

(** C09.  [fuel] bounds the iterations of the model's loop; the result is the same for all large fuel. *)
Theorem C09_semi_directed_paths : forall (h : hord) p A to, square p A -> loopless A ->
  forall fro, fro < p ->
  exists N, forall fuel, N <= fuel ->
    exists l, semi_directed_paths h fuel fro to A = Ok l /\ NoDup l /\
      forall q, In q l <-> semi_path A fro to q.
Proof. exact semi_directed_paths_spec. Qed.
Print Assumptions C09_semi_directed_paths.

(** C10 *)
Theorem C10_separates : forall (h : hord) p G S A B, square p G -> loopless G ->
  (forall a, In a A -> a < p) ->
  exists N, forall fuel, N <= fuel ->
    ((exists x, (In x A /\ In x B) \/ (In x A /\ In x S) \/ (In x B /\ In x S)) /\
     separates h fuel S A B G = Err ValueError) \/
    ((forall x, ~ (In x A /\ In x B) /\ ~ (In x A /\ In x S) /\ ~ (In x B /\ In x S)) /\
     exists r, separates h fuel S A B G = Ok r /\
       (r = true <-> forall a b, In a A -> In b B ->
                       forall q, semi_path G a b q -> exists x, In x q /\ In x S)).
Proof. exact separates_spec. Qed.
Print Assumptions C10_separates.

(** C11 *)
Theorem C11_chain_component : forall (h : hord) p G i, square p G -> i < p ->
  exists l, chain_component h i G = Ok l /\ NoDup l /\
    forall x, In x l <-> clos_refl_trans nat (und G) i x.
Proof. exact chain_component_spec. Qed.
Print Assumptions C11_chain_component.

(** C32.  [choice] is any sampler without replacement. *)
Theorem C32_remove_edges : forall choice p A k n,
  (forall l k, k <= length l -> NoDup l ->
     NoDup (choice l k) /\ incl (choice l k) l /\ length (choice l k) = k) ->
  square p A -> dir_count A n ->
  (n < k /\ remove_edges choice A k = Err ValueError) \/
  (k <= n /\ exists R, remove_edges choice A k = Ok R /\ square p R /\ binary R /\
     (forall i j, edge R i j -> edge A i j) /\ (forall i j, und R i j <-> und A i j) /\
     dir_count R (n - k) /\ (acyclic A -> acyclic R)).
Proof. exact remove_edges_spec. Qed.
Print Assumptions C32_remove_edges.

(** C33.  [shuffle] is any permutation. *)
Theorem C33_add_edges : forall (h : hord) shuffle p A n k, (forall l, Permutation (shuffle l) l) ->
  square p A -> acyclic A -> edge_count A n -> (0 <= k)%Z ->
  ((k > Z.of_nat (p * (p - 1) / 2) - Z.of_nat n)%Z /\ add_edges h shuffle A k = Err ValueError) \/
  ((k <= Z.of_nat (p * (p - 1) / 2) - Z.of_nat n)%Z /\
   exists R, add_edges h shuffle A k = Ok R /\ dag01 p R /\ (forall i j, edge A i j -> edge R i j) /\
     edge_count R (n + Z.to_nat k)).
Proof. exact add_edges_spec. Qed.
Print Assumptions C33_add_edges.

(** C70 is false: is_stable_set never returns a value. *)
Theorem C70_is_stable_set_refuted : forall S j I G, exists e, is_stable_set S j I G = Err e /\
  ((forall i, In i I -> i < length G) -> e = NameError).
Proof. exact is_stable_set_raises. Qed.
Print Assumptions C70_is_stable_set_refuted.

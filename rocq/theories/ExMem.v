(** Concrete instances for C130 (PropMem.v). *)
From Coq Require Import List Arith ZArith Lia.
Import ListNotations.
From Verif Require Import Base GraphModel MemModel MemSpec PropMem.
Local Open Scope Z_scope.

(** Two arrays of the caller: a DAG with a v-structure and the CPDAG of a path *)
Definition em_dag : mat := [[0; 0; 1; 0]; [0; 0; 1; 0]; [0; 0; 0; 1]; [0; 0; 0; 0]].
Definition em_path : mat := [[0; 1; 0]; [1; 0; 1]; [0; 1; 0]].
Definition em_heap : heap := [em_dag; em_path].
Definition result {T} (x : heap * res T) : res T := snd x.
Definition after {T} (x : heap * res T) (a : nat) : mat := cell (fst x) a.

(** The calls really change arrays, but none of the caller: the new array of dag_to_cpdag is number 7; numbers 2 to 6 are
    intermediate (number 4 is the result of order_edges). *)
Example em_cpdag : let x := m_dag_to_cpdag ho_id 0 em_heap in
  result x = Ok 7%nat /\ after x 7 = em_dag /\ after x 0 = em_dag /\ after x 1 = em_path /\
  after x 4 = [[0; 0; 3; 0]; [0; 0; 2; 0]; [0; 0; 0; 1]; [0; 0; 0; 0]].
Proof. vm_compute. repeat split. Qed.
(** The extension of the path *)
Example em_ext : let x := m_pdag_to_dag ho_id 1 em_heap in
  result x = Ok 3%nat /\ after x 3 = [[0; 0; 0]; [1; 0; 0]; [0; 1; 0]] /\ after x 1 = em_path.
Proof. vm_compute. repeat split. Qed.
(** The three orientations of the path, in three arrays *)
Example em_all : let x := m_all_dags ho_id 1 em_heap in
  match result x with Ok cs => length cs = 3%nat /\ map (after x) cs =
    [[[0; 1; 0]; [0; 0; 1]; [0; 0; 0]]; [[0; 0; 0]; [1; 0; 1]; [0; 0; 0]]; [[0; 0; 0]; [1; 0; 0]; [0; 1; 0]]] | Err _ => False end /\ after x 1 = em_path.
Proof. vm_compute. repeat split. Qed.
(** An intervention on the second variable of a path orients its edges *)
Example em_icpdag : let x := m_dag_to_icpdag ho_id 0 [1%nat] [[[0; 1; 0]; [0; 0; 1]; [0; 0; 0]]] in
  match result x with Ok c => after x c = [[0; 1; 0]; [0; 0; 1]; [0; 0; 0]] /\ (0 < c)%nat | Err _ => False end /\
  after x 0 = [[0; 1; 0]; [0; 0; 1]; [0; 0; 0]].
Proof. vm_compute. repeat split; lia. Qed.

(** The hypotheses of the theorems hold here *)
Example em_orders : returns_value (m_is_dag ho_id 0) em_heap (Ok true).
Proof. exact (proj1 (proj2 (C130_orders ho_id em_heap 0 1 (Nat.lt_0_succ 1) (Nat.lt_succ_diag_r 1)))). Qed.
Example em_class : returns_arrays (m_mec ho_id 0 true) em_heap (mec ho_id em_dag true).
Proof. exact (proj1 (proj2 (proj2 (proj2 (C130_classes ho_id em_heap 0 [] true (Nat.lt_0_succ 1)))))). Qed.

(** The statements are not true of programs that change their argument or return it: maximally_orient without the copy of line
    1478, and a function that returns its argument. *)
Example em_no_copy : ~ returns_array (let! _ := m_mo_loop 2 0 in ret 0%nat) [[[0; 1; 0]; [0; 0; 1]; [0; 1; 0]]] (Ok [[0; 1; 0]; [0; 0; 1]; [0; 0; 0]]).
Proof. intros [K _]. destruct (K 0%nat ltac:(simpl; lia)) as [_ E]. vm_compute in E. discriminate. Qed.
Example em_same : ~ returns_array (ret 0%nat) em_heap (Ok em_dag).
Proof. intros [_ (L & _)]. simpl in L. lia. Qed.

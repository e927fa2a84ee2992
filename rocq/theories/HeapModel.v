(** Which arrays the objects of the Model class (model.py) and of the cache (score.py) share. *)
From Coq Require Import List PeanoNat.
From Verif Require Import Base.
Import ListNotations.

(** The attributes of a Model that are arrays: model.py 232-242 *)
Inductive attr := aA | aB | agamma | aomegas | apsis | aI_B.
Record six (T : Type) := Six { s_A : T; s_B : T; s_gamma : T; s_omegas : T; s_psis : T; s_I_B : T }.
Arguments Six {T}.
Definition sget {T} (a : attr) (o : six T) : T :=
  match a with aA => s_A T o | aB => s_B T o | agamma => s_gamma T o | aomegas => s_omegas T o | apsis => s_psis T o
             | aI_B => s_I_B T o end.
Definition sset {T} (a : attr) (x : T) (o : six T) : six T :=
  let '(Six A B g w p i) := o in
  match a with aA => Six x B g w p i | aB => Six A x g w p i | agamma => Six A B x w p i
             | aomegas => Six A B g x p i | apsis => Six A B g w x i | aI_B => Six A B g w p x end.

(** l[i] = x *)
Fixpoint upd_nth {T} (l : list T) (i : nat) (x : T) : list T :=
  match l, i with
  | [], _ => []
  | _ :: l', 0 => x :: l'
  | y :: l', S i' => y :: upd_nth l' i' x
  end.

Section Heap.
(** Array values; the checks of the constructor (model.py 200-229); I - B^T (model.py 242) *)
Variables (V : Type) (d : V) (valid : V -> V -> V -> V -> V -> res unit) (ib : V -> V).

(** Memory: arrays are cells, a Python reference to an array is the index of its cell; an object is the references
    in its attributes.  [arrs] are the arrays held by the caller, [cached] the objects in the cache's list of models. *)
Record store := Store { cells : list V; arrs : list nat; objs : list (six nat); cached : list nat }.

Definition deref (s : store) (r : nat) : V := nth r (cells s) d.
Definition obj (s : store) (k : nat) : six nat := nth k (objs s) (Six 0 0 0 0 0 0).

(** x.copy(), or any expression making a new array *)
Definition alloc (s : store) (v : V) : store * nat :=
  (Store (cells s ++ [v]) (arrs s) (objs s) (cached s), length (cells s)).
(** In-place change of an array *)
Definition poke (s : store) (r : nat) (f : V -> V) : store :=
  Store (upd_nth (cells s) r (f (deref s r))) (arrs s) (objs s) (cached s).

(** Model(A, B, gamma, omegas, psis): model.py 200-242.  The index of the new object is returned. *)
Definition construct (s : store) (rA rB rg rw rp : nat) : store * res nat :=
  match valid (deref s rA) (deref s rB) (deref s rg) (deref s rw) (deref s rp) with
  | Err x => (s, Err x)
  | Ok _ =>
      let '(s, qA) := alloc s (deref s rA) in
      let '(s, qB) := alloc s (deref s rB) in
      let '(s, qg) := alloc s (deref s rg) in
      let '(s, qw) := alloc s (deref s rw) in
      let '(s, qp) := alloc s (deref s rp) in
      let '(s, qi) := alloc s (ib (deref s rB)) in
      (Store (cells s) (arrs s) (objs s ++ [Six qA qB qg qw qp qi]) (cached s), Ok (length (objs s)))
  end.

(** copy: model.py 268-273 *)
Definition copy_obj (s : store) (k : nat) : store * res nat :=
  let o := obj s k in
  let '(s, rA) := alloc s (deref s (s_A _ o)) in
  let '(s, rB) := alloc s (deref s (s_B _ o)) in
  let '(s, rg) := alloc s (deref s (s_gamma _ o)) in
  let '(s, rw) := alloc s (deref s (s_omegas _ o)) in
  let '(s, rp) := alloc s (deref s (s_psis _ o)) in
  construct s rA rB rg rw rp.

(** What a program does with models.
    [CArr v]: makes an array.  [CNew i1 .. i5]: Model(..) on five of its arrays.  [CCopy k]: k.copy().
    [CPokeArr i f]: changes its array i in place.  [CPoke k a f]: changes attribute a of object k in place
    (k.B[i, j] = x).  [CBind k a v]: k.a = a new array.  [CWrite k]: _Cache.write appends k.copy() to its list
    (score.py 485).  References to objects are their indices; what _Cache.read returns (score.py 474) is the object
    in the list itself. *)
Inductive cmd :=
  | CArr (v : V) | CNew (i1 i2 i3 i4 i5 : nat) | CCopy (k : nat) | CPokeArr (i : nat) (f : V -> V)
  | CPoke (k : nat) (a : attr) (f : V -> V) | CBind (k : nat) (a : attr) (v : V) | CWrite (k : nat).

Definition exec (c : cmd) (s : store) : store :=
  match c with
  | CArr v => let '(s, r) := alloc s v in Store (cells s) (arrs s ++ [r]) (objs s) (cached s)
  | CNew i1 i2 i3 i4 i5 =>
      if forallb (fun i => i <? length (arrs s)) [i1; i2; i3; i4; i5]
      then fst (construct s (nth i1 (arrs s) 0) (nth i2 (arrs s) 0) (nth i3 (arrs s) 0) (nth i4 (arrs s) 0) (nth i5 (arrs s) 0))
      else s
  | CCopy k => if k <? length (objs s) then fst (copy_obj s k) else s
  | CPokeArr i f => if i <? length (arrs s) then poke s (nth i (arrs s) 0) f else s
  | CPoke k a f => if k <? length (objs s) then poke s (sget a (obj s k)) f else s
  | CBind k a v =>
      if k <? length (objs s) then
        let '(s, r) := alloc s v in
        Store (cells s) (arrs s) (upd_nth (objs s) k (sset a r (obj s k))) (cached s)
      else s
  | CWrite k =>
      if k <? length (objs s) then
        match copy_obj s k with
        | (s, Ok q) => Store (cells s) (arrs s) (objs s) (cached s ++ [q])
        | (s, Err _) => s
        end
      else s
  end.
Definition exec_all (cs : list cmd) (s : store) : store := fold_left (fun s c => exec c s) cs s.
Definition start : store := Store [] [] [] [].

(** What can be observed: the values in the attributes of object k; [_Cache.read] at index i returns the object
    [nth i (cached s)]. *)
Definition view (s : store) (k : nat) : six V :=
  let o := obj s k in
  Six (deref s (s_A _ o)) (deref s (s_B _ o)) (deref s (s_gamma _ o)) (deref s (s_omegas _ o)) (deref s (s_psis _ o))
      (deref s (s_I_B _ o)).
End Heap.

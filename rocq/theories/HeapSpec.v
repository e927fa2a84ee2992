(** Value semantics of models: each object holds its own values, and no two names share them. *)
From Coq Require Import List PeanoNat.
From Verif Require Import Base HeapModel.
Import ListNotations.

Section HeapSpec.
Variables (V : Type) (d : V) (valid : V -> V -> V -> V -> V -> res unit) (ib : V -> V).

(** The arrays of the caller, the attributes of the objects, which objects the cache lists. *)
Record vstore := VStore { varrs : list V; vobjs : list (six V); vcached : list nat }.

Definition vobj (s : vstore) (k : nat) : six V := nth k (vobjs s) (Six d d d d d d).
Definition is_ok {T} (r : res T) : bool := match r with Ok _ => true | Err _ => false end.
Definition ok5 (A B g w p : V) : bool := is_ok (valid A B g w p).
Definition add (s : vstore) (A B g w p : V) : vstore :=
  if ok5 A B g w p then VStore (varrs s) (vobjs s ++ [Six A B g w p (ib B)]) (vcached s) else s.

Definition vexec (c : cmd V) (s : vstore) : vstore :=
  match c with
  | CArr _ v => VStore (varrs s ++ [v]) (vobjs s) (vcached s)
  | CNew _ i1 i2 i3 i4 i5 =>
      if forallb (fun i => i <? length (varrs s)) [i1; i2; i3; i4; i5]
      then add s (nth i1 (varrs s) d) (nth i2 (varrs s) d) (nth i3 (varrs s) d) (nth i4 (varrs s) d) (nth i5 (varrs s) d)
      else s
  | CCopy _ k =>
      let o := vobj s k in
      if k <? length (vobjs s) then add s (s_A V o) (s_B V o) (s_gamma V o) (s_omegas V o) (s_psis V o) else s
  | CPokeArr _ i f =>
      if i <? length (varrs s) then VStore (upd_nth (varrs s) i (f (nth i (varrs s) d))) (vobjs s) (vcached s) else s
  | CPoke _ k a f =>
      if k <? length (vobjs s)
      then VStore (varrs s) (upd_nth (vobjs s) k (sset a (f (sget a (vobj s k))) (vobj s k))) (vcached s) else s
  | CBind _ k a v =>
      if k <? length (vobjs s) then VStore (varrs s) (upd_nth (vobjs s) k (sset a v (vobj s k))) (vcached s) else s
  | CWrite _ k =>
      let o := vobj s k in
      if andb (k <? length (vobjs s)) (ok5 (s_A V o) (s_B V o) (s_gamma V o) (s_omegas V o) (s_psis V o))
      then VStore (varrs s) (vobjs s ++ [Six (s_A V o) (s_B V o) (s_gamma V o) (s_omegas V o) (s_psis V o) (ib (s_B V o))])
                  (vcached s ++ [length (vobjs s)])
      else s
  end.
Definition vexec_all (cs : list (cmd V)) : vstore := fold_left (fun s c => vexec c s) cs (VStore [] [] []).

(** Command c changes object k. *)
Definition changes (k : nat) (c : cmd V) : Prop :=
  match c with CPoke _ k' _ _ | CBind _ k' _ _ => k' = k | _ => False end.
End HeapSpec.

(** Model of delete (utils.py), which no other function uses. *)
From Coq Require Import List Arith ZArith Bool.
Import ListNotations.
From Verif Require Import Base.

(** A string is the list of its character codes.  The decimal digits of n: *)
Fixpoint digits_aux (fuel n : nat) (acc : list nat) : list nat :=
  match fuel with
  | 0 => acc
  | S k => if n <? 10 then (48 + n) :: acc else digits_aux k (n / 10) ((48 + n mod 10) :: acc)
  end.
Definition digits (n : nat) : list nat := digits_aux (S n) n [].

(** [np.version.version] of release a.b.c *)
Definition version : Type := (nat * nat * nat)%type.
Definition version_string (v : version) : list nat :=
  let '(a, b, c) := v in digits a ++ [46] ++ digits b ++ [46] ++ digits c.

(** s < t on strings *)
Fixpoint str_lt (s t : list nat) : bool :=
  match s, t with
  | _, [] => false
  | [], _ :: _ => true
  | x :: s', y :: t' => (x <? y) || ((x =? y) && str_lt s' t')
  end.

(** v is older than 1.19.0: numpy then takes a boolean argument of np.delete for the integers 0 and 1. *)
Definition older (v : version) : bool :=
  let '(a, b, c) := v in (a =? 0) || ((a =? 1) && (b <? 19)).

(** The elements of l whose index is not in idx, the first index being i *)
Fixpoint without_idx {V} (i : nat) (idx : list nat) (l : list V) : list V :=
  match l with
  | [] => []
  | x :: l' => if existsb (Nat.eqb i) idx then without_idx (S i) idx l' else x :: without_idx (S i) idx l'
  end.

(** np.delete(array, idx), for a list of indices; before 1.19.0 those out of range are ignored. *)
Definition np_delete_idx {V} (v : version) (array : list V) (idx : list nat) : res (list V) :=
  if older v || forallb (fun i => i <? length array) idx then Ok (without_idx 0 idx array) else Err IndexError.
Definition nat_of_bool (b : bool) : nat := if b then 1 else 0.
(** np.delete(array, mask), for a boolean mask *)
Definition np_delete_mask {V} (v : version) (array : list V) (mask : list bool) : res (list V) :=
  if older v then np_delete_idx v array (map nat_of_bool mask)
  else if length mask =? length array then Ok (map fst (filter (fun xm => negb (snd xm)) (combine array mask)))
  else Err ValueError.
(** np.where(mask)[0] *)
Definition np_where (mask : list bool) : list nat := filter (fun i => nth i mask false) (seq 0 (length mask)).

(** delete: utils.py 1320-1343, for one-dimensional arrays (axis None or 0).  [v] is the version of numpy. *)
Definition delete {V} (v : version) (array : list V) (mask : list bool) : res (list V) :=
  if str_lt (version_string v) [49; 46; 49; 57; 46; 48] then np_delete_idx v array (np_where mask)
  else np_delete_mask v array mask.

(** A concrete run of the program of AliasModel.v: the chain of three variables is pruned edge by edge. *)
From Coq Require Import ZArith List.
From mathcomp Require Import all_ssreflect all_algebra.
Import GRing.Theory.
From Verif Require Import Base GraphModel NumModel ScoreModel MainModel ExMain AliasModel AliasSpec PropAlias.
Set Implicit Arguments.
Unset Strict Implicit.
Unset Printing Implicit Defensive.
Local Open Scope nat_scope.

Section Ex.
Variables (F : realFieldType) (log : F -> F) (h : hord) (rnds : nat -> nat -> 'M[F]_3 * 'M[F]_3).
Definition st3 : state F 3 0 1 := State [:: chain3] (RCache [::] [::] [::] [::]) 0.
Example C115_ex : [/\ no_dangling st3, (forall g, g \in [:: 0] -> g < size (st_h st3)) &
  exists st' o0 o1 o2, rprune_graphs (conf4 log h) rnds 9 true None st3 [:: 0] = (st', Ok [:: o0; o1; o2])].
Proof.
have D : no_dangling st3 by split.
have L g : g \in [:: 0] -> g < size (st_h st3) by rewrite inE => /eqP ->.
split=> //; have := C115_in_place F 3 0 1 (conf4 log h) rnds 9 true None st3 [:: 0] D L.
case: rprune_graphs => st' r [E _ _]; have [m0 [m1 [m2 [E2 _]]]] := C52_ex log 0%R h rnds.
move: E2; rewrite -[new_sobj F 3 0 1]/(the_sobj st3) -[chain3]/(at_ (st_h st3) 0) -[[:: at_ _ _]]/([seq at_ (st_h st3) g | g <- [:: 0]]) E /=.
by case: r {E} => [[|o0 [|o1 [|o2 []]]]|] //= _; exists st', o0, o1, o2.
Qed.
End Ex.

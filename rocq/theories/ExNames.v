(** Concrete inputs that meet the hypotheses of the theorems of PropNames.v. *)
From Coq Require Import ZArith List Lia.
From mathcomp Require Import all_ssreflect all_algebra all_fingroup.
From Verif Require Import Base GraphModel GraphSpec RenameSpec NumModel NumSpec ScoreModel CacheSpec ScoreSpec HistProofs LoopProofs RunProofs Run2Proofs NamesSpec NamesProofs.
Set Implicit Arguments.
Unset Strict Implicit.
Unset Printing Implicit Defensive.
Import Order.Theory GRing.Theory Num.Theory.
Local Open Scope ring_scope.

(** Two variables exchange their names: the fit of 0 -> 1 becomes a fit of 1 -> 0. *)
Definition swap2 (i : nat) : nat := match i with 0 => 1 | 1 => 0 | _ => i end.
Lemma swap2_names : names (p := 2) swap2 swap2 (tperm 0 1).
Proof.
split.
  split; first by case=> [|[|i]].
  by split; case=> [|[|i]] //=; lia.
by move=> i; case: tpermP => [->|->|] //; case: i => [[|[|i]] Hi] //= N0 N1; [case: N0|case: N1]; exact: ord_inj.
Qed.

Example C121_ex (F : realFieldType) (log : F -> F) (h : hord) rnd : let cf := conf2 log h in
  let c := @Call F 2 0 2 A2 [:: 0; 1]%N None rnd in
  [/\ names (p := 2) swap2 swap2 (tperm 0 1), (forall k, posdef (cf_sigmas cf k)), (forall k, (0 < cf_n_obs cf k)%N), proper c &
    rename 2 swap2 A2 <> A2 /\ exists cf' m s, [/\ renamed_conf swap2 (tperm 0 1) cf cf', (do_call cf (fresh F 2 0 2 true) c).2 = Ok (m, s) &
      (do_call cf' (fresh F 2 0 2 true) (rename_call swap2 swap2 (tperm 0 1) c)).2 = Ok (rename_model swap2 (tperm 0 1) m, s)]].
Proof.
move=> cf c; have P : proper c by split; [exact: A2_sq | exact: A2_nonneg |].
split=> //; [exact: swap2_names | exact: sig_posdef | split=> //].
case: (renamed_conf_exists cf swap2_names) => cf' RC.
case: (score_stale log h rnd) => m [s [_ [_ [E _ _ _]]]]; have E' := call_fresh P E.
exists cf', m, s; split=> //.
have := @names_calls F 2 0 2 _ _ _ cf cf' swap2_names RC erefl (@sig_posdef F) (fun=> erefl) true [::] c (Forall_nil _) P.
by rewrite E'.
Qed.

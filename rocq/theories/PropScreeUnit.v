(** Properties C136 and C137: the default numbers of latent variables and the units of measurement. *)
From mathcomp Require Import all_ssreflect all_algebra.
From Verif Require Import Base CovModel CovSpec MainModel MainSpec ScreeUnitSpec ScreeUnitProofs.
Import GRing.Theory Num.Theory.
Local Open Scope ring_scope.

(** C136.  The scree plot selects the same number when the singular values are all scaled and shifted. *)
Theorem C136_scree : forall (F : realFieldType) (log : F -> F) (pi c d : F) (svds : seq F), increasing_log log ->
  0 < c -> (2 < size svds)%N -> (forall h, (0 < h < size svds)%N -> 0 < pooled svds h) ->
  scree_selection log pi [seq c * x + d | x <- svds] = scree_selection log pi svds.
Proof. exact @scree_aff. Qed.
Print Assumptions C136_scree.

(** C136: the default numbers of latents are the same when all variables of the first environment are scaled by the same factor and
    each is shifted by its own constant. *)
Theorem C136_numbers : forall (F : realFieldType) (p e : nat) (w : world F p e) (a : args F) (c : F) (b : 'I_p -> F) X training,
  increasing_log (w_log w) -> (forall X, w_cov w X = np_cov X) -> svd_homogeneous w -> a_nums_latent a = None -> (2 < p)%N -> (0 < size X)%N ->
  0 < c -> (forall h, (0 < h < p)%N -> 0 < pooled (singular_values w (np_cov X)) h) ->
  numbers w a ([seq convert (fun=> c) b x | x <- X] :: training) = numbers w a (X :: training).
Proof. exact @numbers_units. Qed.
Print Assumptions C136_numbers.

(** C137 "the default numbers of latents do not depend on the units of the variables" is false: for three variables, with any
    decomposition that is right on diagonal matrices, there is a sample and a change of units that drops the number 2. *)
Theorem C137_units_refuted : forall (F : realFieldType) (e : nat) (w : world F 3 e) (a : args F) training,
  increasing_log (w_log w) -> (forall X, w_cov w X = np_cov X) -> svd_diagonal w -> a_nums_latent a = None ->
  exists X (c : 'I_3 -> F),
  [/\ forall j, 0 < c j, numbers w a (X :: training) = Ok [:: 1%N; 2%N]
    & numbers w a ([seq convert c (fun=> 0) x | x <- X] :: training) = Ok [:: 1%N]].
Proof. exact @units_refuted. Qed.
Print Assumptions C137_units_refuted.

(** Properties C40-C51, C73 and C74: the score cache, score_dag and gradient descent. *)
From Coq Require Import ZArith List.
From mathcomp Require Import all_ssreflect all_algebra.
From Verif Require Import Base GraphModel GraphSpec NumModel NumSpec ScoreModel CacheSpec ScoreSpec NumProofs CacheProofs GDProofs.
From Verif Require Import ScoreProofs HistProofs LoopProofs NoErrProofs RunProofs Run2Proofs.
Set Implicit Arguments.
Unset Strict Implicit.
Unset Printing Implicit Defensive.
Import Order.Theory GRing.Theory Num.Theory.
Local Open Scope ring_scope.

(** C40, for p x p adjacencies and models that can be copied (a copy that fails leaves the lists of different lengths). *)
Theorem C40_cache_is_map : forall (M S : Type) (copy : M -> res M) (p : nat),
  (forall m, exists m', copy m = Ok m') ->
  forall (h : seq (op M S)) (A : mat) (I : seq nat),
  Forall (fun o => square p (op_A o)) h -> square p A ->
  ((exists o, In o h /\ writes A I o) /\
   (exists m (s : S) m', first_write h A I m s /\ copy m = Ok m' /\ read (after copy h) A I = Ok (Some (m', s))) /\
   forall m (s : S), write copy (after copy h) A I m s = (after copy h, Err ValueError)) \/
  ((forall o, In o h -> ~ writes A I o) /\ read (after copy h) A I = Ok None /\
   forall m (s : S), (write copy (after copy h) A I m s).2 = Ok tt).
Proof. exact cache_map. Qed.
Print Assumptions C40_cache_is_map.

(** C40: the first write is determined by the history. *)
Theorem C40_first_write : forall (M S : Type) (h : seq (op M S)) (A : mat) (I : seq nat) (m m' : M) (s s' : S),
  first_write h A I m s -> first_write h A I m' s' -> m = m' /\ s = s'.
Proof. exact first_write_unique. Qed.
Print Assumptions C40_first_write.

(** C41 *)
Theorem C41_not_dag : forall (F : realFieldType) (p l e : nat) (cf : conf F p l e) caching cs (c : call F p l e),
  Forall (@proper F p l e) cs -> proper c -> ~ acyclic (cl_A c) ->
  do_call cf (run cf (fresh F p l e caching) cs) c = (run cf (fresh F p l e caching) cs, Err ValueError).
Proof. exact notdag_always. Qed.
Print Assumptions C41_not_dag.

(** C41: a failed call leaves the object as it was. *)
Theorem C41_failed_call : forall (F : realFieldType) (p l e : nat) (cf : conf F p l e) caching cs (c : call F p l e) x,
  Forall (@proper F p l e) cs -> proper c ->
  (do_call cf (run cf (fresh F p l e caching) cs) c).2 = Err x ->
  (do_call cf (run cf (fresh F p l e caching) cs) c).1 = run cf (fresh F p l e caching) cs.
Proof. exact failed_unchanged. Qed.
Print Assumptions C41_failed_call.

(** C42: c' asks for the pair of c after any calls cs'; its random draws and the solvers do not matter. *)
Theorem C42_repeatable : forall (F : realFieldType) (p l e : nat) (cf : conf F p l e) cs (c : call F p l e) cs' c' m s,
  Forall (@proper F p l e) cs -> Forall (@proper F p l e) cs' -> proper c ->
  cl_A c' = cl_A c -> same_set (cl_I c') (cl_I c) -> cl_init c' = None ->
  let st := run cf (fresh F p l e true) cs in
  (do_call cf st c).2 = Ok (m, s) ->
  let st' := run cf (do_call cf st c).1 cs' in
  exists m', do_call cf st' c' = (st', Ok (m', s)) /\ same_params m m'.
Proof. exact repeatable. Qed.
Print Assumptions C42_repeatable.

(** C43, for a pair that no earlier call had: the history does not matter. *)
Theorem C43_initial_model_partial : forall (F : realFieldType) p l e (cf : conf F p l e) caching cs (c : call F p l e),
  Forall (@proper F p l e) cs -> proper c -> cl_init c <> None ->
  (forall d, In d cs -> ~ (cl_A d = cl_A c /\ same_set (cl_I c) (cl_I d))) ->
  (do_call cf (run cf (fresh F p l e caching) cs) c).2 = fit cf (cl_A c) (cl_I c) (cl_init c) (cl_rnd c).
Proof. exact init_model_new. Qed.
Print Assumptions C43_initial_model_partial.

(** C43: for every pair that was scored, an initial model is rejected after it was fitted. *)
Theorem C43_initial_model_rejected : forall (F : realFieldType) p l e (cf : conf F p l e) cs (c : call F p l e) m s c' r,
  Forall (@proper F p l e) cs -> proper c -> proper c' ->
  cl_A c' = cl_A c -> same_set (cl_I c') (cl_I c) -> cl_init c' <> None ->
  let st := run cf (fresh F p l e true) cs in
  (do_call cf st c).2 = Ok (m, s) ->
  fit cf (cl_A c') (cl_I c') (cl_init c') (cl_rnd c') = Ok r ->
  do_call cf (do_call cf st c).1 c' = ((do_call cf st c).1, Err ValueError).
Proof. exact init_after_scored. Qed.
Print Assumptions C43_initial_model_rejected.

(** C43: a call with an initial model that succeeds on a new object and fails after another call. *)
Theorem C43_initial_model_refuted : forall (F : realFieldType) (log : F -> F) (h : hord),
  exists (cf : conf F 1 0 1) c c' r r', [/\ proper c, proper c', acyclic (cl_A c'), cl_init c' <> None &
    [/\ (do_call cf (fresh F 1 0 1 true) c).2 = Ok r, (do_call cf (fresh F 1 0 1 true) c').2 = Ok r' &
        (do_call cf (run cf (fresh F 1 0 1 true) [:: c]) c').2 = Err ValueError]].
Proof. exact init_model_refuted. Qed.
Print Assumptions C43_initial_model_refuted.

(** C44: ms k, ss k, ds k are the model, its score and the distance between the B of rounds k - 1 and k, after k
    rounds. *)
Theorem C44_stops : forall (F : realFieldType) (p l e : nat) (cf : conf F p l e) (A : mat), square p A -> nonneg A ->
  forall I init rnd m s, (forall m0, init = Some m0 -> square p (mA m0)) -> fit cf A I init rnd = Ok (m, s) ->
  exists n (ms : nat -> model F p l e) (ss ds : nat -> F),
    [/\ (0 < n <= cf_max_iter cf)%N,
        (if init is Some m0 then ms 0%N = m0 /\ mA m0 = A else initial_model cf A I = Ok (ms 0%N)) /\
          mscore cf (ms 0%N) = Ok (ss 0%N),
        (forall j, (j < n)%N -> goes_on cf ds ss j /\ round cf I (rnd j) (ms j) = Ok (ms j.+1, ss j.+1, ds j.+1)),
        ~~ goes_on cf ds ss n & m = ms n /\ s = ss n].
Proof. exact fit_trace. Qed.
Print Assumptions C44_stops.

(** C45, for positive limits: the only errors are those of a round. *)
Theorem C45_defined_partial : forall (F : realFieldType) (p l e : nat) (cf : conf F p l e) (A : mat), square p A -> nonneg A ->
  forall I init rnd m0 s0, acyclic A ->
  (if init is Some m1 then m1 = m0 /\ mA m0 = A else initial_model cf A I = Ok m0) -> mscore cf m0 = Ok s0 ->
  if (0 < cf_max_iter cf)%N && (0 < cf_max_fluctuations cf)%N then
    (exists r, fit cf A I init rnd = Ok r) \/
    (exists x j pm, fit cf A I init rnd = Err x /\ round cf I (rnd j) pm = Err x)
  else fit cf A I init rnd = Err UnboundLocalError.
Proof. exact fit_limits. Qed.
Print Assumptions C45_defined_partial.

(** C45: with a limit of zero, score_dag raises UnboundLocalError on all valid data and every DAG. *)
Theorem C45_defined_refuted : forall (F : realFieldType) p l e (cf : conf F p l e) A I rnd,
  square p A -> nonneg A -> acyclic A ->
  (0 < e)%N -> (forall k, posdef (cf_sigmas cf k)) -> (forall k, (0 < cf_n_obs cf k)%N) -> (l <= p)%N ->
  (forall u, cf_psi_max cf = Some u -> 1 < u) -> cf_max_iter cf = 0%N \/ cf_max_fluctuations cf = 0%N ->
  fit cf A I None rnd = Err UnboundLocalError.
Proof. exact limit_zero. Qed.
Print Assumptions C45_defined_refuted.

(** C46: the score is that of the returned parameters, but with B' (of the round before) in place of B. *)
Theorem C46_score_partial : forall (F : realFieldType) (p l e : nat) (cf : conf F p l e) (A : mat), square p A -> nonneg A ->
  forall I init rnd m s, (forall m0, init = Some m0 -> square p (mA m0)) -> fit cf A I init rnd = Ok (m, s) ->
  exists B' m' d, [/\ new_model (cf_h cf) A B' (mgamma m) (momegas m) (mpsis m) = Ok m', mscore cf m' = Ok s &
                      amax (B' - mB m) = Ok d].
Proof. exact fit_score. Qed.
Print Assumptions C46_score_partial.

(** C46: two variables with an edge, two environments, no latents. *)
Theorem C46_score_refuted : forall (F : realFieldType) (log : F -> F) (h : hord) rnd,
  let cf := conf2 log h in
  exists m s m' s', [/\ fit cf A2 [:: 0; 1]%N None rnd = Ok (m, s),
    new_model h (mA m) (mB m) (mgamma m) (momegas m) (mpsis m) = Ok m', mscore cf m' = Ok s' & s <> s'].
Proof. exact score_stale. Qed.
Print Assumptions C46_score_refuted.

(** C47, for histories without initial models. *)
Theorem C47_constraint_partial : forall (F : realFieldType) (p l e : nat) (cf : conf F p l e) caching cs (c : call F p l e) m s,
  Forall (@proper F p l e) cs -> Forall (fun d => cl_init d = None) cs ->
  proper c -> cl_init c = None ->
  (do_call cf (run cf (fresh F p l e caching) cs) c).2 = Ok (m, s) -> invariant_outside (cf_psi_fixed cf) (cl_I c) m.
Proof. exact constrained. Qed.
Print Assumptions C47_constraint_partial.

(** C47: a call without initial model returns the model of an earlier call with one, of which a variable that is not a
    target has different variances. *)
Theorem C47_constraint_refuted : forall (F : realFieldType) (log : F -> F) (h : hord),
  exists (cf : conf F 1 0 2) c0 c m s, [/\ proper c0, proper c, cl_init c = None, ~ In 0%N (cl_I c) &
    (do_call cf (run cf (fresh F 1 0 2 true) [:: c0]) c).2 = Ok (m, s) /\ ~ const_col (momegas m) 0].
Proof. exact constraint_refuted. Qed.
Print Assumptions C47_constraint_refuted.

(** C48 and C49: every returned model, for all histories and with or without initial model. *)
Theorem C48_variances : forall (F : realFieldType) (p l e : nat) (cf : conf F p l e) caching cs (c : call F p l e) m s,
  Forall (@proper F p l e) cs -> proper c ->
  (do_call cf (run cf (fresh F p l e caching) cs) c).2 = Ok (m, s) ->
  [/\ acyclic (cl_A c), mA m = cl_A c, supported (cl_A c) (mB m) & in_range (cf_psi_max cf) m].
Proof. exact fitted. Qed.
Print Assumptions C48_variances.

(** C48: with psi_max <= 1 no call without initial model returns. *)
Theorem C48_psi_max : forall (F : realFieldType) (p l e : nat) (cf : conf F p l e) caching cs (c : call F p l e) u r,
  Forall (@proper F p l e) cs -> Forall (fun d => cl_init d = None) cs ->
  proper c -> cl_init c = None -> (0 < l)%N -> (0 < e)%N -> cf_psi_max cf = Some u -> u <= 1 ->
  (do_call cf (run cf (fresh F p l e caching) cs) c).2 <> Ok r.
Proof. exact history_psi. Qed.
Print Assumptions C48_psi_max.

(** C48: the exception is ValueError, unless an earlier step of the first round fails. *)
Theorem C48_psi_max_error : forall (F : realFieldType) (p l e : nat) (cf : conf F p l e) (A : mat), square p A -> nonneg A ->
  forall I rnd u m0 s0 B g, (0 < l)%N -> (0 < e)%N -> cf_psi_max cf = Some u -> u <= 1 ->
  (0 < cf_max_iter cf)%N -> (0 < cf_max_fluctuations cf)%N ->
  initial_model cf A I = Ok m0 -> mscore cf m0 = Ok s0 -> solve_B cf m0 (rnd 0%N).1 (rnd 0%N).2 = Ok B ->
  solve_gamma cf (set_B m0 B) = Ok g -> fit cf A I None rnd = Err ValueError.
Proof. exact fit_psi_error. Qed.
Print Assumptions C48_psi_max_error.

(** C49 *)
Theorem C49_initial_B : forall (F : realFieldType) (p l e : nat) (cf : conf F p l e) (A : mat) (B : 'M[F]_p),
  initialize_B cf A = Ok B -> supported A B.
Proof. exact initialize_B_supported. Qed.
Print Assumptions C49_initial_B.

(** C49, for starting points of _solve_for_B_grad with an entry above 1e-10. *)
Theorem C49_solvers_partial : forall (F : realFieldType) (p l e : nat) (cf : conf F p l e) (m : model F p l e) rnd rnd' B,
  (cf_solver cf = Grad -> nontrivial rnd) -> solve_B cf m rnd rnd' = Ok B -> supported (mA m) B.
Proof. exact solve_B_supported. Qed.
Print Assumptions C49_solvers_partial.

(** C49: from a starting point of zeros the result of _solve_for_B_grad is the identity. *)
Theorem C49_solvers_refuted : forall (F : realFieldType) (log : F -> F) (h : hord),
  exists cf : conf F 1 0 1, forall m rnd', positive (momegas m) ->
  exists B, solve_B cf m 0 rnd' = Ok B /\ ~ supported A1 B.
Proof. exact zero_draw_refuted. Qed.
Print Assumptions C49_solvers_refuted.

(** C49: score_dag then raises. *)
Theorem C49_zero_start : forall (F : realFieldType) (log : F -> F) (h : hord) I,
  fit (conf1 log h 1 Grad) A1 I None (fun=> (0, 0)) = Err ValueError.
Proof. exact zero_draw_fit. Qed.
Print Assumptions C49_zero_start.

(** C50 *)
Theorem C50_descent : forall (F : realFieldType) (X : Type) (sub : X -> F -> X -> X) flat loss grad threshold lr kz bounds
    fuel (x0 x : X) (l : F),
  gd sub flat loss grad threshold lr kz bounds fuel x0 = Ok (x, l) ->
  [/\ inside_opt (flat x0) bounds /\ inside_opt (flat x) bounds, descent sub flat loss grad bounds lr x0 x &
      exists li, [/\ loss x0 = Ok li, loss x = Ok l & l <= li]].
Proof. exact gd_ok. Qed.
Print Assumptions C50_descent.

(** C50, if loss and gradient do not raise within the bounds. *)
Theorem C50_errors : forall (F : realFieldType) (X : Type) (sub : X -> F -> X -> X) flat loss grad threshold lr kz bounds,
  entrywise sub flat ->
  (forall x, inside_opt (flat x) bounds -> exists l : F, loss x = Ok l) ->
  (forall x, inside_opt (flat x) bounds -> exists g, grad x = Ok g) ->
  forall fuel x0,
  (~ inside_opt (flat x0) bounds /\ gd sub flat loss grad threshold lr kz bounds fuel x0 = Err ValueError) \/
  (inside_opt (flat x0) bounds /\
   (gd sub flat loss grad threshold lr kz bounds fuel x0 = Err OutOfFuel \/
    exists r, gd sub flat loss grad threshold lr kz bounds fuel x0 = Ok r)).
Proof. exact gd_err. Qed.
Print Assumptions C50_errors.

(** C51 *)
Theorem C51_terminates : forall (F : archiFieldType) (X : Type) (sub : X -> F -> X -> X) flat loss grad threshold lr kz bounds,
  entrywise sub flat ->
  (forall x, inside_opt (flat x) bounds -> exists g, grad x = Ok g) ->
  forall low : F, (forall x, inside_opt (flat x) bounds -> exists l, loss x = Ok l /\ low <= l) ->
  0 < threshold -> 0 < kz -> forall x0, inside_opt (flat x0) bounds ->
  exists n r, forall fuel, (n <= fuel)%N -> gd sub flat loss grad threshold lr kz bounds fuel x0 = Ok r.
Proof. exact gd_term. Qed.
Print Assumptions C51_terminates.

(** C73 *)
Theorem C73_no_exception : forall (F : realFieldType) (p l e : nat) (cf : conf F p l e) (A : mat),
  square p A -> nonneg A -> acyclic A -> (0 < p)%N -> (0 < e)%N ->
  (forall k, posdef (cf_sigmas cf k)) -> (forall k, (0 < cf_n_obs cf k)%N) ->
  forall I rnd, (l <= p)%N -> (forall u, cf_psi_max cf = Some u -> 1 < u) ->
  (0 < cf_max_iter cf)%N -> (0 < cf_max_fluctuations cf)%N ->
  (cf_solver cf = Grad -> forall k, nontrivial (rnd k).1) ->
  (exists r, fit cf A I None rnd = Ok r) \/ (exists x, fit cf A I None rnd = Err x /\ stuck cf x).
Proof. exact fit_no_error. Qed.
Print Assumptions C73_no_exception.

(** C74 *)
Theorem C74_normal_equations : forall (F : realFieldType) (p l e : nat) (cf : conf F p l e) (A : mat),
  (avg_cov cf)^T = avg_cov cf -> forall B, initialize_B cf A = Ok B ->
  supported A B /\ forall i j : 'I_p, edge A i j -> (avg_cov cf *m B) i j = avg_cov cf i j.
Proof. exact initialize_B_normal. Qed.
Print Assumptions C74_normal_equations.

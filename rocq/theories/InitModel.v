(** Model of _initialize_B, _initialize_gamma and _initialize_omegas (score.py 877-1107) with their argument init.
    ScoreModel.v has them for init='avg', the only value score_dag uses. *)
From Coq Require Import ZArith.
From mathcomp Require Import all_ssreflect all_algebra.
From Verif Require Import Base GraphModel ListModel NumModel ScoreModel.
Set Implicit Arguments.
Unset Strict Implicit.
Unset Printing Implicit Defensive.
Import Order.Theory GRing.Theory Num.Theory.
Local Open Scope ring_scope.

(** 'obs', 'avg' or another string *)
Inductive init_kind := InitObs | InitAvg | InitOther.

Section Init.
Variables (F : realFieldType) (p l e : nat) (cf : conf F p l e).

(** The check of init and the choice of the covariance: score.py 931-940, 1007-1015, 1082-1090 *)
Definition init_cov (k : init_kind) : res 'M[F]_p :=
  match k with
  | InitObs => if insub 0%N is Some i then Ok (cf_sigmas cf i) else Err IndexError
  | InitAvg => Ok (avg_cov cf)
  | InitOther => Err ValueError
  end.

(** _initialize_B: score.py 930-945 *)
Fixpoint init_cols_of (cov : 'M[F]_p) (A : mat) (js : seq 'I_p) (B : 'M[F]_p) : res 'M[F]_p :=
  if js is j :: js' then
    bind (regress j (pa_of A j) cov) (fun x => init_cols_of cov A js' (set_col B j x))
  else Ok B.
Definition init_B (k : init_kind) (A : mat) : res 'M[F]_p :=
  bind (init_cov k) (fun cov => init_cols_of cov A (enum 'I_p) 0).

(** _initialize_gamma: score.py 1006-1020.  The result has l rows; with more latents than variables it has only p in the
    code, and the constructor of Model raises ValueError (model.py 228-229). *)
Definition init_gamma (k : init_kind) (B : 'M[F]_p) : res 'M[F]_(l, p) :=
  bind (init_cov k) (fun cov =>
  let US := cf_svd cf ((1%:M - B^T) *m cov *m (1%:M - B^T)^T) in
  if (l <= p)%N then
    Ok (\matrix_(i, j) (if insub (nat_of_ord i) is Some k then US.1 j k * cf_sqrt cf (US.2 0 k) else 0))
  else Err ValueError).

(** _initialize_omegas: score.py 1081-1107.  The variable sigma that the choice of init sets is overwritten by the loop. *)
Definition init_omegas (k : init_kind) (B : 'M[F]_p) (I : seq nat) : res 'M[F]_(e, p) :=
  bind (init_cov k) (fun _ => Ok (initialize_omegas cf B I)).
End Init.

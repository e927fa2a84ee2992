(** Model of score.py over an arbitrary real field: the cache, gradient descent, the solvers, the initialisation and
    score_dag. *)
From Coq Require Import ZArith.
From mathcomp Require Import all_ssreflect all_algebra.
From Verif Require Import Base GraphModel NumModel.
Set Implicit Arguments.
Unset Strict Implicit.
Unset Printing Implicit Defensive.
Import Order.Theory GRing.Theory Num.Theory.
Local Open Scope ring_scope.

(** * The cache *)

Section Cache.
Variables (M S : Type) (copy : M -> res M).

(** _Cache.__init__: score.py 429-433.  The four lists are kept separately, as in the code. *)
Record cache := MkCache { cAs : seq mat; cIs : seq (seq nat); cscores : seq S; cmodels : seq M }.
Definition empty_cache : cache := MkCache [::] [::] [::] [::].

(** Equality of Python sets *)
Definition set_eqb (I J : seq nat) : bool := subsetb I J && subsetb J I.

(** _find: score.py 435-465 *)
Definition find (c : cache) (A : mat) (I : seq nat) : res (option nat) :=
  if cAs c is [::] then Ok None
  else
    let A_indices := [seq k <- iota 0 (size (cAs c)) | mateqb A (nth [::] (cAs c) k)] in
    match A_indices with
    | [::] => Ok None
    | [:: index] => if set_eqb (nth [::] (cIs c) index) I then Ok (Some index) else Ok None
    | _ =>
        let possible_Is := [seq nth [::] (cIs c) i | i <- A_indices] in
        let I_subindices := [seq k <- iota 0 (size possible_Is) | set_eqb (nth [::] possible_Is k) I] in
        match I_subindices with
        | [::] => Ok None
        | [:: I_index] => Ok (Some (nth 0%N A_indices I_index))
        | _ => Err OtherException
        end
    end.

(** read: score.py 467-474 *)
Definition read (c : cache) (A : mat) (I : seq nat) : res (option (M * S)) :=
  bind (find c A I) (fun k =>
    match k with
    | None => Ok None
    | Some index =>
        match List.nth_error (cmodels c) index, List.nth_error (cscores c) index with
        | Some m, Some s => Ok (Some (m, s))
        | _, _ => Err IndexError
        end
    end).

(** write with check=True: score.py 476-485.  If the copy of the model fails, the other lists have grown. *)
Definition write (c : cache) (A : mat) (I : seq nat) (m : M) (s : S) : cache * res unit :=
  match find c A I with
  | Err x => (c, Err x)
  | Ok (Some _) => (c, Err ValueError)
  | Ok None =>
      let As := rcons (cAs c) A in let Is := rcons (cIs c) I in let ss := rcons (cscores c) s in
      match copy m with
      | Ok m' => (MkCache As Is ss (rcons (cmodels c) m'), Ok tt)
      | Err x => (MkCache As Is ss (cmodels c), Err x)
      end
  end.
End Cache.

(** * Gradient descent *)

Section GD.
Variable F : realFieldType.

(** _is_within_bounds: score.py 1156-1163.  An upper bound None is np.Inf. *)
Fixpoint within (xs : seq (seq F)) (bs : seq (F * option F)) : res bool :=
  match xs, bs with
  | x :: xs', (lo, hi) :: bs' =>
      if (if hi is Some u then u < lo else false) then Err ValueError
      else if has (fun v => v <= lo) x || has (fun v => if hi is Some u then u <= v else false) x then Ok false
      else within xs' bs'
  | _, _ => Ok true
  end.

(** _gradient_descent works on a list of arrays; here X is the type of that list, [flat] gives the arrays (each as the
    list of its entries) and [sub x c g] is [x - c * g] array by array (score.py 1233-1234). *)
Variables (X : Type) (sub : X -> F -> X -> X) (flat : X -> seq (seq F)).
Variables (loss : X -> res F) (grad : X -> res X) (threshold lr kz : F) (bounds : option (seq (F * option F))).

Definition in_bounds (x : X) : res bool := if bounds is Some bs then within (flat x) bs else Ok true.

(** The loop: score.py 1227-1287.  [g] is the last gradient when the last step was not taken ([moved] is False). *)
Fixpoint gd_loop (fuel : nat) (cX : X) (cl kappa : F) (g : option X) : res (X * F) :=
  if fuel is fuel'.+1 then
    bind (if g is Some g' then Ok g' else grad cX) (fun g =>
    let nX := sub cX (kappa * lr) g in
    bind (in_bounds nX) (fun w =>
    if ~~ w then gd_loop fuel' cX cl (kappa / 2%:R) (Some g)
    else bind (loss nX) (fun nl =>
      if (nl < cl) && (`|nl - cl| < threshold) then Ok (nX, nl)
      else if nl < cl then gd_loop fuel' nX nl kappa None
      else if kappa * lr <= kz then Ok (cX, cl)
      else gd_loop fuel' cX cl (kappa / 2%:R) (Some g))))
  else Err OutOfFuel.

(** _gradient_descent: score.py 1213-1287 *)
Definition gd (fuel : nat) (X_init : X) : res (X * F) :=
  bind (in_bounds X_init) (fun w =>
  if ~~ w then Err ValueError
  else bind (loss X_init) (fun cl => gd_loop fuel X_init cl 1 None)).
End GD.

(** * The Score class *)

Inductive bsolver := Cvx | Grad | Adaptive.

(** A Score object (without its cache): the attributes set by Score.__init__, score.py 214-275 (the checks are in
    [NdModel.v]), and the functions the model does not interpret:
    np.log; the iteration order of sets; scipy.linalg.sqrtm; the solution of the convex problem of _solve_for_B_cvx (None
    if the solver fails); np.linalg.svd (U and the singular values); the square root; np.isfinite(...).all().
    [fuel] bounds the iterations of the three unbounded loops. *)
Record conf (F : realFieldType) (p l e : nat) := Conf {
  cf_log : F -> F;
  cf_h : hord;
  cf_sqrtm : 'M[F]_p -> 'M[F]_p;
  cf_cvx : model F p l e -> option 'M[F]_p;
  cf_svd : 'M[F]_p -> 'M[F]_p * 'rV[F]_p;
  cf_sqrt : F -> F;
  cf_finite : 'M[F]_p -> bool;
  cf_sigmas : 'I_e -> 'M[F]_p;
  cf_n_obs : 'I_e -> nat;
  cf_psi_max : option F;
  cf_psi_fixed : bool;
  cf_max_iter : nat;
  cf_threshold_dist_B : F;
  cf_threshold_fluctuation : F;
  cf_max_fluctuations : nat;
  cf_threshold_score : F;
  cf_learning_rate : F;
  cf_solver : bsolver;
  cf_fuel : nat }.

Section Score.
Variables (F : realFieldType) (p l e : nat) (cf : conf F p l e).
Local Notation log := (cf_log cf).
Local Notation h := (cf_h cf).
Local Notation sqrtm := (cf_sqrtm cf).
Local Notation cvx := (cf_cvx cf).
Local Notation svd := (cf_svd cf).
Local Notation sqrt := (cf_sqrt cf).
Local Notation finite := (cf_finite cf).
Local Notation sigmas := (cf_sigmas cf).
Local Notation n_obs := (cf_n_obs cf).
Local Notation psi_max := (cf_psi_max cf).
Local Notation psi_fixed := (cf_psi_fixed cf).
Local Notation max_iter := (cf_max_iter cf).
Local Notation threshold_dist_B := (cf_threshold_dist_B cf).
Local Notation threshold_fluctuation := (cf_threshold_fluctuation cf).
Local Notation max_fluctuations := (cf_max_fluctuations cf).
Local Notation threshold_score := (cf_threshold_score cf).
Local Notation learning_rate := (cf_learning_rate cf).
Local Notation solver := (cf_solver cf).
Local Notation fuel := (cf_fuel cf).
Local Notation model := (model F p l e).
Local Notation newM := (@new_model F h p l e).
Local Notation tot := ((\sum_i n_obs i)%N%:R : F).

Definition mscore (m : model) : res F := score log m sigmas n_obs.

(** abs(X).max() *)
Definition amax (X : 'M[F]_p) : res F :=
  if p == 0%N then Err ValueError
  else Ok (\big[Order.max/0]_(i < p) \big[Order.max/0]_(j < p) `|X i j|).

(** ** Solvers for B *)

(** N = sum_k S_k^T S_k with S_k = kron(sqrtm(sigma_k), sqrtm(M_k)): score.py 517-520, 597-600.  A column-major
    flattened p x p matrix is kept as a matrix; row [v * p + u], column [c * p + r] of kron(P, Q) is P[v,c] * Q[u,r]. *)
Definition kron (P Q : 'M[F]_p) (u v r c : 'I_p) : F := P v c * Q u r.
Definition Nmat (Ms : 'I_e -> 'M[F]_p) (r c r' c' : 'I_p) : F :=
  \sum_k \sum_v \sum_u kron (sqrtm (sigmas k)) (sqrtm (Ms k)) u v r c * kron (sqrtm (sigmas k)) (sqrtm (Ms k)) u v r' c'.
Definition Nmul (Ms : 'I_e -> 'M[F]_p) (X : 'M[F]_p) : 'M[F]_p :=
  \matrix_(r, c) \sum_c' \sum_r' Nmat Ms r c r' c' * X r' c'.

(** [X[zero_elements] = 0; X[one_elements] = 1]: score.py 527-528, 545-546, 602-603, 606-607, 612-613 *)
Definition pattern (A : mat) (X : 'M[F]_p) : 'M[F]_p :=
  \matrix_(r, c) (if r == c then 1 else if Z.eqb (get A c r) Z0 then 0 else X r c).

(** The loop of _solve_for_B_adaptive: score.py 610-628 *)
Fixpoint adaptive_loop (k : nat) (lik : 'M[F]_p -> res F) (Ms : 'I_e -> 'M[F]_p) (A : mat) (lr : F)
  (cur : 'M[F]_p) (cs : F) : res 'M[F]_p :=
  if k is k'.+1 then
    let nxt := pattern A (cur - lr *: Nmul Ms cur) in
    bind (lik nxt) (fun ns =>
    if cs < ns then adaptive_loop k' lik Ms A (lr / 2%:R) cur cs
    else bind (amax (cur - nxt)) (fun d =>
      if d < (10%:R ^+ 5)^-1 then Ok cur
      else adaptive_loop k' lik Ms A lr nxt ns))
  else Err OutOfFuel.

(** _solve_for_B_adaptive: score.py 585-633; rnd is np.random.uniform(size=(p**2, 1)) *)
Definition solve_B_adaptive (m : model) (rnd : 'M[F]_p) : res 'M[F]_p :=
  let lik X := bind (newM (mA m) (1%:M - X)^T (mgamma m) (momegas m) (mpsis m)) mscore in
  bind (inv_noise m) (fun Ms =>
  let cur := pattern (mA m) rnd in
  bind (lik cur) (fun cs =>
  bind (adaptive_loop fuel lik Ms (mA m) 1 cur cs) (fun X => Ok (1%:M - X)^T))).

(** The loop of _solve_for_B_grad: score.py 530-546.  The result is (B_new, learn_rate). *)
Fixpoint grad_loop (k : nat) (Ms : 'I_e -> 'M[F]_p) (A : mat) (init : 'M[F]_p) (lr : F) (B Bnew : 'M[F]_p)
  : res ('M[F]_p * F) :=
  bind (amax (B - Bnew)) (fun d =>
  if (10%:R ^+ 10)^-1 < d then
    if k is k'.+1 then
      let step := lr *: Nmul Ms Bnew in
      if lr == 0 then Ok (Bnew, lr)
      else if ~~ finite step then grad_loop k' Ms A init (lr / 2%:R) 0 init
      else grad_loop k' Ms A init lr Bnew (pattern A (Bnew - step))
    else Err OutOfFuel
  else Ok (Bnew, lr)).

(** _solve_for_B_grad: score.py 514-559; rnd, rnd' are the draws of this function and of the adaptive solver *)
Definition solve_B_grad (m : model) (rnd rnd' : 'M[F]_p) : res 'M[F]_p :=
  bind (inv_noise m) (fun Ms =>
  bind (grad_loop fuel Ms (mA m) rnd (5%:R / 1000%:R) 0 rnd) (fun r =>
  let final_B := 1%:M - r.1 in
  if finite final_B && (0 < r.2) then Ok final_B^T
  else solve_B_adaptive m rnd')).

(** The objective of the convex problem: score.py 668-680; cp.norm(aux, 'fro')**2 is the sum of the squared entries *)
Definition cvx_objective (Ms : 'I_e -> 'M[F]_p) (B : 'M[F]_p) : F :=
  (\sum_i (\sum_u \sum_v ((sqrtm (Ms i) *m (1%:M - B^T) *m sqrtm (sigmas i)) u v) ^+ 2) * (n_obs i)%:R) / tot.

(** _solve_for_B_cvx: score.py 658-697.  The final [B[mask] = 0] is applied to the solver's answer. *)
Definition solve_B_cvx (m : model) : res 'M[F]_p :=
  bind (inv_noise m) (fun _ =>
  match cvx m with
  | None => Err TypeError
  | Some B =>
      if [forall i : 'I_p, forall j : 'I_p, Z.eqb (get (mA m) i j) Z0 ==> (`|B i j| <= (10%:R ^+ 8)^-1)]
      then Ok (\matrix_(i, j) (if Z.eqb (get (mA m) i j) Z0 then 0 else B i j))
      else Err AssertionError
  end).

Definition solve_B (m : model) (rnd rnd' : 'M[F]_p) : res 'M[F]_p :=
  match solver with
  | Cvx => solve_B_cvx m
  | Grad => solve_B_grad m rnd rnd'
  | Adaptive => solve_B_adaptive m rnd
  end.

(** ** Solver for gamma *)

Definition entries (a b : nat) (X : 'M[F]_(a, b)) : seq F := [seq X i j | i <- enum 'I_a, j <- enum 'I_b].

Definition Ns (B : 'M[F]_p) (k : 'I_e) : 'M[F]_p := (1%:M - B^T) *m sigmas k *m (1%:M - B^T)^T.

(** The matrix T of score.py 753-759 *)
Definition T_gamma (gamma : 'M[F]_(l, p)) (psis : 'M[F]_(e, l)) (x : 'I_e) (a : 'I_l) (k : 'I_p) : 'M[F]_p :=
  let T := \matrix_(i, j) (if i == k then gamma a j * psis x a else 0) in T + T^T.

(** gradients: score.py 738-767 *)
Definition gamma_gradient (m : model) (gamma : 'M[F]_(l, p)) : res 'M[F]_(l, p) :=
  bind (newM (mA m) (mB m) gamma (momegas m) (mpsis m)) (fun nm =>
  bind (inv_noise nm) (fun Ms =>
  Ok (\matrix_(a, k)
    ((\sum_x (n_obs x)%:R * (let T := T_gamma gamma (mpsis m) x a k in
        \tr (Ms x *m T) - \tr (Ms x *m Ns (mB m) x *m Ms x *m T))) / tot)))).

(** _solve_for_gamma: score.py 734-778 *)
Definition gamma_loss (m : model) (gamma : 'M[F]_(l, p)) : res F :=
  bind (newM (mA m) (mB m) gamma (momegas m) (mpsis m)) mscore.
Definition kz : F := (10%:R ^+ 50)^-1.
Definition solve_gamma (m : model) : res 'M[F]_(l, p) :=
  bind (gd (fun x c g => x - c *: g) (fun x => [:: entries x]) (gamma_loss m) (gamma_gradient m)
           threshold_score learning_rate kz None fuel (mgamma m))
       (fun r => Ok r.1).

(** ** Solver for omegas and psis *)

(** [X[:, j] = X[:, j].mean()] for the columns selected by c *)
Definition average_cols (a b : nat) (c : pred 'I_b) (X : 'M[F]_(a, b)) : 'M[F]_(a, b) :=
  \matrix_(i, j) (if c j then (\sum_k X k j) / a%:R else X i j).

(** gradients: score.py 830-857 *)
Definition rest_gradient (m : model) (I : seq nat) (x : 'M[F]_(e, p) * 'M[F]_(e, l))
  : res ('M[F]_(e, p) * 'M[F]_(e, l)) :=
  bind (newM (mA m) (mB m) (mgamma m) x.1 x.2) (fun nm =>
  bind (inv_noise nm) (fun Ms =>
  let g_o := \matrix_(y < e, j < p) ((n_obs y)%:R / tot * (Ms y - Ms y *m Ns (mB m) y *m Ms y) j j) in
  let g_p := \matrix_(y < e, k < l) ((n_obs y)%:R / tot *
     (let T := \matrix_(i, j) (mgamma m k i * mgamma m k j) in
      \tr (Ms y *m T) - \tr (Ms y *m Ns (mB m) y *m Ms y *m T))) in
  Ok (average_cols (fun j : 'I_p => ~~ memb j I) g_o,
      if psi_fixed then average_cols (fun=> true) g_p else g_p))).

Definition rest_loss (m : model) (x : 'M[F]_(e, p) * 'M[F]_(e, l)) : res F :=
  bind (newM (mA m) (mB m) (mgamma m) x.1 x.2) mscore.

(** _solve_for_rest: score.py 826-871 *)
Definition sub2 (x : 'M[F]_(e, p) * 'M[F]_(e, l)) (c : F) (g : 'M[F]_(e, p) * 'M[F]_(e, l)) :=
  (x.1 - c *: g.1, x.2 - c *: g.2).
Definition rest_bounds : seq (F * option F) := [:: (0, None); (0, psi_max)].
Definition solve_rest (m : model) (I : seq nat) : res ('M[F]_(e, p) * 'M[F]_(e, l)) :=
  bind (gd sub2 (fun x => [:: entries x.1; entries x.2]) (rest_loss m) (rest_gradient m I)
           threshold_score learning_rate kz (Some rest_bounds) fuel (momegas m, mpsis m))
       (fun r => Ok r.1).

(** ** Initialisation *)

(** The average covariance: score.py 938-939, 1012-1013 *)
Definition avg_cov : 'M[F]_p := tot^-1 *: \sum_k (n_obs k)%:R *: sigmas k.

(** _regress: score.py 1290-1294 *)
Definition regress (j : 'I_p) (pa : seq 'I_p) (cov : 'M[F]_p) : res 'cV[F]_(size pa) :=
  let S := \matrix_(a < size pa, b < size pa) cov (nth j pa a) (nth j pa b) in
  if S \in unitmx then Ok (invmx S *m \col_a cov j (nth j pa a)) else Err OtherException.

(** _initialize_B with init='avg': score.py 929-945 *)
Definition pa_of (A : mat) (j : 'I_p) : seq 'I_p := [seq i : 'I_p <- enum 'I_p | ~~ Z.eqb (get A i j) Z0].
Definition set_col (B : 'M[F]_p) (j : 'I_p) (pa : seq 'I_p) (x : 'cV[F]_(size pa)) : 'M[F]_p :=
  \matrix_(i, k) (if (k == j) && (i \in pa) then \sum_(a < size pa | nth j pa a == i) x a 0 else B i k).
Fixpoint init_cols (A : mat) (js : seq 'I_p) (B : 'M[F]_p) : res 'M[F]_p :=
  if js is j :: js' then
    bind (regress j (pa_of A j) avg_cov) (fun x => init_cols A js' (set_col B j x))
  else Ok B.
Definition initialize_B (A : mat) : res 'M[F]_p := init_cols A (enum 'I_p) 0.

(** _initialize_gamma with init='avg': score.py 1004-1020.  With more latents than variables the result has
    only p rows, and the constructor of Model raises ValueError (model.py 228-229). *)
Definition initialize_gamma (B : 'M[F]_p) : res 'M[F]_(l, p) :=
  let US := svd ((1%:M - B^T) *m avg_cov *m (1%:M - B^T)^T) in
  if (l <= p)%N then
    Ok (\matrix_(i, j) (if insub (nat_of_ord i) is Some k then US.1 j k * sqrt (US.2 0 k) else 0))
  else Err ValueError.

(** _initialize_omegas: score.py 1080-1107 *)
Definition initialize_omegas (B : 'M[F]_p) (I : seq nat) : 'M[F]_(e, p) :=
  let wo := \matrix_(i < e, j < p) ((1%:M - B^T) *m sigmas i *m (1%:M - B^T)^T) j j in
  \matrix_(i, j) (if memb j I then wo i j else (\sum_k wo k j * (n_obs k)%:R) / tot).

(** _initialize_psis: score.py 1132-1133 *)
Definition initialize_psis : 'M[F]_(e, l) := const_mx 1.

(** score.py 330-346 *)
Definition initial_model (A : mat) (I : seq nat) : res model :=
  bind (initialize_B A) (fun B =>
  bind (initialize_gamma B) (fun gamma =>
  newM A B gamma (initialize_omegas B I) initialize_psis)).

(** ** score_dag *)

(** Assignments to attributes of a model: I_B is not updated. *)
Definition set_B (m : model) (B : 'M[F]_p) : model := MkModel (mA m) B (mgamma m) (momegas m) (mpsis m) (mI_B m).
Definition set_gamma (m : model) (g : 'M[F]_(l, p)) : model :=
  MkModel (mA m) (mB m) g (momegas m) (mpsis m) (mI_B m).
Definition set_rest (m : model) (x : 'M[F]_(e, p) * 'M[F]_(e, l)) : model :=
  MkModel (mA m) (mB m) (mgamma m) x.1 x.2 (mI_B m).

(** One round: score.py 368-403.  The result is the model, its score and dist_B. *)
Definition round (I : seq nat) (rnd : 'M[F]_p * 'M[F]_p) (pm : model) : res (model * F * F) :=
  bind (copy_model h pm) (fun c0 =>
  bind (solve_B c0 rnd.1 rnd.2) (fun nB =>
  let c1 := set_B c0 nB in
  bind (solve_gamma c1) (fun g =>
  let c2 := set_gamma c1 g in
  bind (solve_rest c2 I) (fun x =>
  let c3 := set_rest c2 x in
  bind (amax (mB pm - mB c3)) (fun d =>
  bind (mscore c3) (fun s => Ok (c3, s, d))))))).

(** The loop: score.py 357-412.  dist = None is np.Inf; cur is (current_model, current_score), None while
    unassigned. *)
Definition continue (i : nat) (dist : option F) (flucs : nat) : bool :=
  (if dist is Some d then threshold_dist_B < d else true) && (i < max_iter)%N && (flucs < max_fluctuations)%N.
Fixpoint alt_loop (k : nat) (I : seq nat) (rnd : nat -> 'M[F]_p * 'M[F]_p) (i : nat) (dist : option F) (flucs : nat)
  (pm : model) (ps : F) (cur : option (model * F)) : res (option (model * F)) :=
  if continue i dist flucs then
    if k is k'.+1 then
      bind (round I (rnd i) pm) (fun r =>
      let '(cm, cs, d) := r in
      let flucs' := if threshold_fluctuation < cs - ps then flucs.+1 else flucs in
      alt_loop k' I rnd i.+1 (Some d) flucs' cm cs (Some (cm, cs)))
    else Err OutOfFuel
  else Ok cur.

(** score_dag without the cache: score.py 318-412, 418 *)
Definition fit (A : mat) (I : seq nat) (init_model : option model) (rnd : nat -> 'M[F]_p * 'M[F]_p)
  : res (model * F) :=
  bind (is_dag h A) (fun d =>
  if ~~ d then Err ValueError
  else
    bind (match init_model with
          | Some m => if mateqb (mA m) A then Ok m else Err ValueError
          | None => initial_model A I
          end) (fun m =>
    bind (mscore m) (fun s =>
    bind (alt_loop max_iter I rnd 0 None 0 m s None) (fun cur =>
    if cur is Some r then Ok r else Err UnboundLocalError)))).

(** score_dag: score.py 312-418.  st is the cache (None with cache=False). *)
Definition score_dag (st : option (cache model F)) (A : mat) (I : seq nat) (init_model : option model)
  (rnd : nat -> 'M[F]_p * 'M[F]_p) : option (cache model F) * res (model * F) :=
  let go :=
    match fit A I init_model rnd with
    | Err x => (st, Err x)
    | Ok (m, s) =>
        match st with
        | None => (st, Ok (m, s))
        | Some c => let '(c', w) := write (@copy_model F h p l e) c A I m s in (Some c', bind w (fun _ => Ok (m, s)))
        end
    end in
  match init_model, st with
  | None, Some c =>
      match read c A I with
      | Err x => (st, Err x)
      | Ok (Some r) => (st, Ok r)
      | Ok None => go
      end
  | _, _ => go
  end.

(** A call of score_dag, and the outcomes of a sequence of calls on one Score object *)
Record call := Call { cl_A : mat; cl_I : seq nat; cl_init : option model; cl_rnd : nat -> 'M[F]_p * 'M[F]_p }.
Definition do_call (st : option (cache model F)) (c : call) :=
  score_dag st (cl_A c) (cl_I c) (cl_init c) (cl_rnd c).
Definition run (st : option (cache model F)) (cs : seq call) : option (cache model F) :=
  foldl (fun st c => (do_call st c).1) st cs.
End Score.

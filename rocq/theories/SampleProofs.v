(** Validation of n_obs in sample. *)
From Coq Require Import ZArith Lia.
From mathcomp Require Import all_ssreflect all_algebra.
From Verif Require Import Base GraphModel GraphSpec NumModel NumSpec ArraySpec LinAlgProofs NumProofs.
Set Implicit Arguments.
Unset Strict Implicit.
Unset Printing Implicit Defensive.
Import GRing.Theory Num.Theory.

Lemma check_entry_spec covs v :
  (exists n, count covs v n /\ check_entry covs v = Ok n) \/ (exists x, bad covs v x /\ check_entry covs v = Err x).
Proof.
case: v => [z|xs|]; [|by right; exists TypeError; split=> //; left..].
rewrite /=; case: (Z.leb_spec z Z0) => H.
  by right; exists ValueError; split=> //; right; split=> //; exists z; auto.
case: (Z.eqb_spec z (Zpos xH)) => E /=.
  case: covs => /=.
    by right; exists ValueError; split=> //; right; split=> //; exists z; auto.
  by left; exists (Z.to_nat z); split=> //; split; [congr PInt; lia | split=> //; apply/ltP; lia].
by left; exists (Z.to_nat z); split=> //; split; [congr PInt; lia | split=> [|E1]; [apply/ltP; lia | exfalso; lia]].
Qed.

Lemma check_entries_spec covs vs :
  (exists ns, List.Forall2 (count covs) vs ns /\ check_entries covs vs = Ok ns) \/
  (exists pre v post x, vs = pre ++ v :: post /\ List.Forall (fun u => exists n, count covs u n) pre /\ bad covs v x /\
     check_entries covs vs = Err x).
Proof.
elim: vs => [|v vs IH] /=; first by left; exists [::].
case: (check_entry_spec covs v) => [[n [Hn ->]]|[x [Hx ->]]] /=; last first.
  by right; exists [::], v, vs, x.
case: IH => [[ns [Hs ->]]|[pre [u [post [x [-> [Hp [Hb ->]]]]]]]] /=.
  by left; exists (n :: ns); split=> //; constructor.
right; exists (v :: pre), u, post, x; split=> //; split=> //; constructor=> //; by exists n.
Qed.

Section Sample.
Variables (F : realFieldType) (h : hord) (p l e : nat).
Variable draw : nat -> 'M[F]_p -> nat -> seq 'rV[F]_p.

Lemma sample_ok A (B : 'M[F]_p) (g : 'M[F]_(l, p)) (o : 'M[F]_(e, p)) (s : 'M[F]_(e, l)) m v covs ns :
  square p A -> nonneg A -> new_model h A B g o s = Ok m -> check_n_obs e covs v = Ok ns -> 
  exists Sigma xs, covariances m = Ok Sigma /\ sample draw m v covs = Ok (xs, ns) /\
    size xs = e /\ forall i : 'I_e, nth [::] xs i = draw i (Sigma i) (nth 0%N ns i).
Proof.
move=> SA NA E Ec; have [_ [Sg [ES _]]] := covariances_spec SA NA E.
exists Sg; eexists; split=> //; split; first by rewrite /sample Ec /= ES.
split; first by rewrite size_map size_enum_ord.
move=> i; rewrite (nth_map i) ?size_enum_ord ?ltn_ord // nth_ord_enum //.
Qed.

Lemma sample_spec A (B : 'M[F]_p) (g : 'M[F]_(l, p)) (o : 'M[F]_(e, p)) (s : 'M[F]_(e, l)) m v covs :
  square p A -> nonneg A -> new_model h A B g o s = Ok m ->
  let returns ns := exists Sigma xs, covariances m = Ok Sigma /\ sample draw m v covs = Ok (xs, ns) /\
    size xs = e /\ forall i : 'I_e, nth [::] xs i = draw i (Sigma i) (nth 0%N ns i) in
  match v with
  | POther => sample draw m v covs = Err TypeError
  | PInt _ => (bad covs v ValueError /\ sample draw m v covs = Err ValueError) \/
              (exists n, count covs v n /\ returns (nseq e n))
  | PList vs => (length vs <> e /\ sample draw m v covs = Err ValueError) \/
      (length vs = e /\ exists pre u post x, vs = pre ++ u :: post /\
         List.Forall (fun u => exists n, count covs u n) pre /\ bad covs u x /\ sample draw m v covs = Err x) \/
      (length vs = e /\ exists ns, List.Forall2 (count covs) vs ns /\ returns ns)
  end.
Proof.
move=> SA NA E returns; case: v @returns => [z|vs|] returns //.
  have K : (bad covs (PInt z) ValueError /\ check_n_obs e covs (PInt z) = Err ValueError) \/
           exists n, count covs (PInt z) n /\ check_n_obs e covs (PInt z) = Ok (nseq e n).
    rewrite /=; case: (Z.eqb_spec z (Zpos xH)) => E1; case: covs {returns} => /=.
    - by left; split=> //; right; split=> //; exists z; auto.
    - by right; exists 1%N; rewrite E1.
    - case: (Z.ltb_spec Z0 z) => H.
        by right; exists (Z.to_nat z); split=> //; split; [congr PInt; lia | split=> [|E2]; [apply/ltP; lia | exfalso; lia]].
      by left; split=> //; right; split=> //; exists z; split=> //; left.
    - case: (Z.ltb_spec Z0 z) => H.
        by right; exists (Z.to_nat z); split=> //; split; [congr PInt; lia | split=> [|E2]; [apply/ltP; lia | exfalso; lia]].
      by left; split=> //; right; split=> //; exists z; split=> //; left.
  case: K => [[Hb K]|[n [Hc K]]]; first by left; split=> //; rewrite /sample K.
  by right; exists n; split=> //; apply: (sample_ok SA NA E K).
case: (eqVneq (length vs) e) => L; last by left; split; [apply/eqP | rewrite /sample /= L].
case: (check_entries_spec covs vs) => [[ns [Hs K]]|[pre [u [post [x [Ev [Hp [Hb K]]]]]]]]; right.
  right; split=> //; exists ns; split=> //; apply: (sample_ok SA NA E); by rewrite /= L eqxx.
by left; split=> //; exists pre, u, post, x; split=> //; split=> //; split=> //; rewrite /sample /= L eqxx /= K.
Qed.
End Sample.

(** Concrete non-trivial instances of the hypotheses of PropList.v, with the values the model computes. *)
From Coq Require Import List Arith ZArith QArith Lia Bool Permutation.
Import ListNotations.
From Verif Require Import Base GraphModel GraphSpec ListModel ListSpec BasicProofs ExGraph1.
Open Scope nat_scope.

Example C34_ex : NoDup [3; 1; 2] /\
  subsets ho_id [3; 1; 2] = [[]; [3]; [1]; [2]; [3; 1]; [3; 2]; [1; 2]; [3; 1; 2]].
Proof. split; [repeat constructor; simpl; lia | reflexivity]. Qed.
(** The conversion to np.byte. *)
Definition byte (z : Z) : Z := ((z + 128) mod 256 - 128)%Z.
Example C35_ex : (forall a x, In a [[1; 2]; [7]; [5; 6]]%Z -> In x a -> byte x = x) /\
  cartesian byte [[1; 2]; [7]; [5; 6]]%Z = Ok [[1; 7; 5]; [1; 7; 6]; [2; 7; 5]; [2; 7; 6]]%Z /\
  map (digits [2; 1; 2]) [0; 1; 2; 3] = [[0; 0; 0]; [0; 0; 1]; [1; 0; 0]; [1; 0; 1]].
Proof.
  split; [|split; reflexivity].
  intros a x [<-|[<-|[<-|[]]]]; simpl; intros H; repeat (destruct H as [<-|H]); try contradiction; reflexivity.
Qed.
(** Outside of the hypothesis: the default dtype of cartesian wraps around. *)
Example C35_byte_wraps : cartesian byte [[200]; [1]]%Z = Ok [[-56; 1]]%Z.
Proof. reflexivity. Qed.
Example C36_sort_ex : Permutation [2; 0; 3; 1] (seq 0 4) /\ sort_by [2; 0; 3; 1] [0; 1; 2; 1] = Ok [2; 0; 1; 1] /\
  sort_by [2; 0; 3; 1] [0; 7] = Err IndexError /\ sort_none [3; -1; 2; -1]%Z = [-1; -1; 2; 3]%Z.
Proof.
  split; [|split; [|split]; reflexivity]. apply NoDup_Permutation; [repeat constructor; simpl; lia | apply seq_NoDup |].
  simpl. lia.
Qed.
Example C36_member_ex : square 4 diamond /\ (forall B, In B [cyc4; diamond; pd4; diamond] -> square 4 B) /\
  member [cyc4; diamond; pd4; diamond] diamond = Some 1 /\ member [cyc4; pd4] diamond = None.
Proof.
  split; [apply diamond_sq|]. split; [|split; vm_compute; reflexivity].
  intros B [<-|[<-|[<-|[<-|[]]]]]; [apply cyc4_sq | apply diamond_sq | apply pd4_sq | apply diamond_sq].
Qed.
Example C36_all_but_ex : all_but [3; 1] 5 = [0; 2; 4].
Proof. reflexivity. Qed.
Example C36_arg_ex : argmin 3 [[3; 2; 5]; [2; 9; 9]]%Z = Ok (0, 1) /\ argmax 3 [[3; 2; 5]; [2; 9; 9]]%Z = Ok (1, 1) /\
  argmin 0 [] = Err ValueError.
Proof. split; [|split]; reflexivity. Qed.
Example C37_ex : (fold_right Qplus 0 [1 # 2; 1 # 4; 1 # 4] == 1)%Q /\
  split_data (fun e l => if e =? 0 then rev l else l) [[1; 2; 3; 4]; [5; 6; 7; 8; 9; 10; 11; 12]] [1 # 2; 1 # 4; 1 # 4]%Q
  = Ok [[[4; 3]; [5; 6; 7; 8]]; [[2]; [9; 10]]; [[1]; [11; 12]]] /\
  split_data (fun _ l => l) [[1; 2]] [1 # 2; 1 # 4]%Q = Err ValueError.
Proof. split; [|split]; reflexivity. Qed.
(** Here the rows run out: both halves of 3 rows round to 2. *)
Example C37_short_ex : split_data (fun _ l => l) [[1; 2; 3]] [1 # 2; 1 # 2]%Q = Ok [[[1; 2]]; [[3]]].
Proof. reflexivity. Qed.
Example C38_ex : split_data (fun _ l => l) [[0; 1; 2; 3; 4]] [1 # 2; 1 # 4; 1 # 4]%Q = Ok [[[0; 1]]; [[2]]; [[3]]].
Proof. reflexivity. Qed.
Example C38_partial_ex : (forall sample r, In sample [[1; 2; 3; 4]] -> In r [1 # 2; 1 # 4; 1 # 4]%Q ->
    exists z, (inject_Z (Z.of_nat (length sample)) * r == inject_Z z)%Q).
Proof. intros s r [<-|[]] [<-|[<-|[<-|[]]]]; [exists 2%Z | exists 1%Z | exists 1%Z]; reflexivity. Qed.

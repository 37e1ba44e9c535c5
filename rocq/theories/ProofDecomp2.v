From Coq Require Import Lra Nsatz.
From Verif Require Import Base SpecTensor ModelTrans ModelDecomp SpecTrans SpecDecomp ProofTrans ProofRigid ProofQuat ProofEuler ProofDecomp.
Open Scope R_scope.
Notation length := List.length.

Local Ltac c4 i := destruct i as [|[|[|[|i]]]]; try lia.
Local Ltac c3 i := destruct i as [|[|[|i]]]; try lia.

(** ** compose_matrix *)
Definition affine_part (s z t : vec) (q : mat4) : mat4 := fun i j =>
  if (i =? 3)%nat then (if (j =? 3)%nat then 1 else 0) else
  match j with
  | 0%nat => q i 0%nat * s 0%nat
  | 1%nat => (q i 0%nat * z 0%nat + q i 1%nat) * s 1%nat
  | 2%nat => (q i 0%nat * z 1%nat + q i 1%nat * z 2%nat + q i 2%nat) * s 2%nat
  | _ => t i
  end.
Definition with_row (p : vec) (L : mat4) : mat4 := fun i j => if (i =? 3)%nat then dot4 p (fun k => L k j) else L i j.
Lemma compose_entries s z a t p q : proper_rotation q -> same4 (euler_coded (a 0%nat) (a 1%nat) (a 2%nat) sxyz) q ->
  exists M, compose_matrix (Some s) (Some z) (Some a) (Some t) (Some p) = Ok M /\
  forall i j, (i < 4)%nat -> (j < 4)%nat ->
    M i j = with_row p (affine_part s z t q) i j / with_row p (affine_part s z t q) 3%nat 3%nat.
Proof.
  intros Pr HE. pose proof Pr as (((A0 & A1) & Lin) & _ & _).
  unfold compose_matrix. unfold euler_matrix.
  change (decode (Name "sxyz")) with (Ok sxyz). cbn [bind option_map factor].
  set (E := euler_coded (a 0%nat) (a 1%nat) (a 2%nat) sxyz) in *. clearbody E.
  match goal with |- context [Ok (fun i j => ?w i j / _)] => set (W := w) end.
  exists (fun i j => W i j / W 3%nat 3%nat). split; [reflexivity|].
  assert (H : forall i j, (i < 4)%nat -> (j < 4)%nat -> W i j = with_row p (affine_part s z t q) i j).
  { intros i j Hi Hj.
    assert (EE : forall k l, (k < 3)%nat -> (l < 3)%nat -> E k l = q k l) by (intros k l Hk Hl; apply HE; lia).
    assert (E3 : forall k, (k < 3)%nat -> E 3%nat k = 0 /\ E k 3%nat = 0).
    { intros k Hk. split; [rewrite HE by lia; apply A0, Hk|rewrite HE by lia; apply Lin, Hk]. }
    assert (E33 : E 3%nat 3%nat = 1) by (rewrite HE by lia; exact A1).
    pose proof (E3 0 ltac:(lia))%nat as [U0 V0]. pose proof (E3 1 ltac:(lia))%nat as [U1 V1]. pose proof (E3 2 ltac:(lia))%nat as [U2 V2].
    unfold W, with_row, affine_part. unfold mdot4, dot4, mset, setcol, identity4.
    c4 i; c4 j; cbn; rewrite ?U0, ?U1, ?U2, ?V0, ?V1, ?V2, ?E33, ?EE by lia; ring. }
  intros i j Hi Hj. cbv beta. rewrite (H i j Hi Hj), (H 3%nat 3%nat) by lia. reflexivity.
Qed.

(** ** the inverse of an affine matrix *)
Definition cof3 (A : mat4) (i j : nat) : R :=
  A (S i mod 3)%nat (S j mod 3)%nat * A (S (S i) mod 3)%nat (S (S j) mod 3)%nat
  - A (S i mod 3)%nat (S (S j) mod 3)%nat * A (S (S i) mod 3)%nat (S j mod 3)%nat.
Definition affine_inverse (A : mat4) : mat4 := fun i j =>
  if (i =? 3)%nat then (if (j =? 3)%nat then 1 else 0)
  else if (j =? 3)%nat then - (cof3 A 0 i * A 0%nat 3%nat + cof3 A 1 i * A 1%nat 3%nat + cof3 A 2 i * A 2%nat 3%nat) / det3 A
  else cof3 A j i / det3 A.
Lemma affine_inverse_ok A : affine A -> det3 A <> 0 ->
  same4 (product A (affine_inverse A)) identity4 /\ same4 (product (affine_inverse A) A) identity4.
Proof.
  intros [A0 A1] D. pose proof (A0 0 ltac:(lia))%nat as B0. pose proof (A0 1 ltac:(lia))%nat as B1. pose proof (A0 2 ltac:(lia))%nat as B2.
  unfold det3 in D. split; intros i j Hi Hj; unfold product, vsum, affine_inverse, cof3, identity4, det3; c4 i; c4 j; cbn;
    rewrite ?B0, ?B1, ?B2, ?A1; field; exact D.
Qed.

Definition homogeneous (m : mat4) : mat4 := fun i j => if (i =? 3)%nat then (if (j =? 3)%nat then 1 else 0) else m i j / m 3%nat 3%nat.


(** Eigenvectors of rank one changes of multiples of the identity. *)
From Coq Require Import Lra.
From Verif Require Import Base SpecTensor ModelTrans ModelFrom SpecTrans SpecFrom ProofTrans ProofRigid.
Open Scope R_scope.
Notation length := List.length.

Lemma vsum_ext n f g : (forall k, (k < n)%nat -> f k = g k) -> vsum n f = vsum n g.
Proof. induction n as [|n IH]; intros H; cbn; [reflexivity|]. rewrite IH by (intros; apply H; lia). now rewrite H by lia. Qed.
Lemma inner_ext n u v u' v' : (forall k, (k < n)%nat -> u k = u' k) -> (forall k, (k < n)%nat -> v k = v' k) -> inner n u v = inner n u' v'.
Proof. intros Hu Hv. apply vsum_ext. intros k Hk. now rewrite Hu, Hv. Qed.
Lemma inner_lin n N u v a b : inner n N (fun k => a * u k + b * v k) = a * inner n N u + b * inner n N v.
Proof. unfold inner. induction n as [|n IH]; cbn; [ring|]. rewrite IH. ring. Qed.
Lemma inner_mul n N v a : inner n N (fun k => a * v k) = a * inner n N v.
Proof. unfold inner. induction n as [|n IH]; cbn; [ring|]. rewrite IH. ring. Qed.
Lemma inner_sq_nonneg n v : 0 <= inner n v v.
Proof. unfold inner. induction n as [|n IH]; cbn; [lra|]. pose proof (Rle_0_sqr (v n)) as H. unfold Rsqr in H. lra. Qed.
Lemma inner_zero n v : inner n v v = 0 -> forall k, (k < n)%nat -> v k = 0.
Proof.
  induction n as [|n IH]; intros H k Hk; [lia|]. unfold inner in *. cbn in H.
  pose proof (inner_sq_nonneg n v) as P. unfold inner in P. pose proof (Rle_0_sqr (v n)) as Q. unfold Rsqr in Q.
  destruct (Nat.eq_dec k n) as [->|]; [|apply IH; [lra|lia]]. apply Rsqr_0_uniq. unfold Rsqr. lra.
Qed.
Lemma inner_all0 n u v : (forall k, (k < n)%nat -> v k = 0) -> inner n u v = 0.
Proof. intros H. unfold inner. induction n as [|n IH]; cbn; [reflexivity|]. rewrite IH by (intros; apply H; lia). rewrite H by lia. ring. Qed.

(** [m = alpha + gamma D N^T] *)
Definition rank1 (n : nat) (m : nat -> nat -> R) (alpha gamma : R) (D N : vec) : Prop :=
  forall v i, (i < n)%nat -> inner n (m i) v = alpha * v i + gamma * inner n N v * D i.
Lemma rank1_pair n m alpha gamma D N p : rank1 n m alpha gamma D N -> eigenpair n m p -> length2 n p <> 0 ->
  wi p = 0 /\
  ((wr p = alpha /\ forall i, (i < n)%nat -> gamma * inner n N (vr p) * D i = 0) \/
   (wr p = alpha + gamma * inner n N D /\ wr p <> alpha /\ exists c, forall i, (i < n)%nat -> vr p i = c * D i)).
Proof.
  intros HM HE HL. destruct p as [a b u x]. unfold eigenpair, length2 in *. cbn [wr wi vr vi] in *.
  set (s := inner n N u) in *. set (t := inner n N x) in *.
  assert (E1 : forall i, (i < n)%nat -> (a - alpha) * u i - b * x i = gamma * s * D i).
  { intros i Hi. pose proof (proj1 (HE i Hi)) as A. rewrite (HM u i Hi) in A. fold s in A. lra. }
  assert (E2 : forall i, (i < n)%nat -> (a - alpha) * x i + b * u i = gamma * t * D i).
  { intros i Hi. pose proof (proj2 (HE i Hi)) as A. rewrite (HM x i Hi) in A. fold t in A. lra. }
  set (z := a - alpha) in *.
  destruct (Req_dec (z * z + b * b) 0) as [H0|H0].
  - assert (Hz : z = 0). { apply Rsqr_0_uniq. unfold Rsqr. pose proof (Rle_0_sqr z) as P1. pose proof (Rle_0_sqr b) as P2. unfold Rsqr in P1, P2. lra. }
    assert (Hb : b = 0). { apply Rsqr_0_uniq. unfold Rsqr. pose proof (Rle_0_sqr z) as P1. pose proof (Rle_0_sqr b) as P2. unfold Rsqr in P1, P2. lra. }
    split; [exact Hb|]. left. split; [unfold z in Hz; lra|]. intros i Hi. rewrite <- (E1 i Hi), Hz, Hb. ring.
  - set (w := z * z + b * b) in *.
    assert (U : forall i, (i < n)%nat -> u i = (z * gamma * s + b * gamma * t) / w * D i).
    { intros i Hi. pose proof (E1 i Hi) as A1. pose proof (E2 i Hi) as A2.
      assert (A : w * u i = (z * gamma * s + b * gamma * t) * D i).
      { unfold w. transitivity (z * (z * u i - b * x i) + b * (z * x i + b * u i)); [ring|]. rewrite A1, A2. ring. }
      apply (Rmult_eq_reg_l w); [|exact H0]. rewrite A. field. exact H0. }
    assert (X : forall i, (i < n)%nat -> x i = (z * gamma * t - b * gamma * s) / w * D i).
    { intros i Hi. pose proof (E1 i Hi) as A1. pose proof (E2 i Hi) as A2.
      assert (A : w * x i = (z * gamma * t - b * gamma * s) * D i).
      { unfold w. transitivity (z * (z * x i + b * u i) - b * (z * u i - b * x i)); [ring|]. rewrite A1, A2. ring. }
      apply (Rmult_eq_reg_l w); [|exact H0]. rewrite A. field. exact H0. }
    set (q := gamma * inner n N D).
    assert (S1 : z * s - b * t = q * s).
    { transitivity (inner n N (fun i => z * u i + - b * x i)).
      - rewrite inner_lin. fold s t. ring.
      - rewrite (inner_ext n N _ N (fun i => gamma * s * D i)); [rewrite inner_mul; unfold q; ring|reflexivity|].
        intros i Hi. rewrite <- (E1 i Hi). ring. }
    assert (S2 : z * t + b * s = q * t).
    { transitivity (inner n N (fun i => z * x i + b * u i)).
      - rewrite inner_lin. fold s t. ring.
      - rewrite (inner_ext n N _ N (fun i => gamma * t * D i)); [rewrite inner_mul; unfold q; ring|reflexivity|].
        intros i Hi. rewrite <- (E2 i Hi). ring. }
    assert (Nst : s <> 0 \/ t <> 0).
    { destruct (Req_dec s 0) as [Hs|Hs]; [|now left]. destruct (Req_dec t 0) as [Ht|Ht]; [|now right]. exfalso. apply HL.
      rewrite !inner_all0; [ring| |]; intros i Hi; [rewrite X by exact Hi|rewrite U by exact Hi]; rewrite Hs, Ht; field; exact H0. }
    assert (K : (z - q) * (z - q) + b * b = 0).
    { assert (Ks : ((z - q) * (z - q) + b * b) * s = 0).
      { transitivity ((z - q) * (z * s - b * t - q * s) + b * (z * t + b * s - q * t)); [ring|]. rewrite S1, S2. ring. }
      assert (Kt : ((z - q) * (z - q) + b * b) * t = 0).
      { transitivity ((z - q) * (z * t + b * s - q * t) - b * (z * s - b * t - q * s)); [ring|]. rewrite S1, S2. ring. }
      destruct Nst as [Hs|Ht]; [apply Rmult_integral in Ks|apply Rmult_integral in Kt]; tauto. }
    assert (Hb : b = 0). { apply Rsqr_0_uniq. unfold Rsqr. pose proof (Rle_0_sqr (z - q)) as P1. pose proof (Rle_0_sqr b) as P2. unfold Rsqr in P1, P2. lra. }
    assert (Hq : z - q = 0). { apply Rsqr_0_uniq. unfold Rsqr. pose proof (Rle_0_sqr (z - q)) as P1. pose proof (Rle_0_sqr b) as P2. unfold Rsqr in P1, P2. lra. }
    split; [exact Hb|]. right. split; [unfold z, q in *; lra|]. split.
    + intros Ha. apply H0. unfold w. rewrite Hb. unfold z. rewrite Ha. ring.
    + eexists. exact U.
Qed.
(** the eigenvectors *)
Lemma rank1_top n m alpha gamma D N : rank1 n m alpha gamma D N ->
  eigenpair n m (EPair (alpha + gamma * inner n N D) 0 D (fun _ => 0)).
Proof.
  intros HM i Hi. cbn [wr wi vr vi]. rewrite !(HM _ i Hi). rewrite (inner_all0 n N (fun _ => 0)) by reflexivity. split; ring.
Qed.
Lemma rank1_plane n m alpha gamma D N v : rank1 n m alpha gamma D N -> inner n N v = 0 ->
  eigenpair n m (EPair alpha 0 v (fun _ => 0)).
Proof.
  intros HM Hv i Hi. cbn [wr wi vr vi]. rewrite !(HM _ i Hi), Hv. rewrite (inner_all0 n N (fun _ => 0)) by reflexivity. split; ring.
Qed.
(** a list of eigenvectors is what eig may return *)
Lemma rank1_right n m alpha gamma D N l : rank1 n m alpha gamma D N -> length l = n ->
  (forall p, In p l -> wi p = 0 /\ inner n (vr p) (vr p) = 1 /\ (forall i, vi p i = 0) /\
     ((wr p = alpha /\ inner n N (vr p) = 0) \/ (wr p = alpha + gamma * inner n N D /\ exists c, forall i, (i < n)%nat -> vr p i = c * D i))) ->
  (exists p, In p l /\ wr p = alpha) -> (exists p, In p l /\ wr p = alpha + gamma * inner n N D) ->
  eig_right n m l.
Proof.
  intros HM Hlen Hp [pa [Ia Ea]] [pb [Ib Eb]]. split; [exact Hlen|]. split.
  - intros p I. destruct (Hp p I) as (Wi & U & Vi & C). split; [|split].
    + intros i Hi. rewrite !(HM _ i Hi), Wi, Vi. rewrite (inner_all0 n N (vi p)) by (intros; apply Vi).
      destruct C as [[E Z]|[E [c Hc]]].
      * rewrite E, Z. split; ring.
      * rewrite E. rewrite (inner_ext n N (vr p) N (fun k => c * D k) ltac:(reflexivity) Hc), inner_mul, (Hc i Hi). split; ring.
    + unfold length2. rewrite U, (inner_all0 n (vi p) (vi p)) by (intros; apply Vi). ring.
    + intros _ i _. apply Vi.
  - intros q HE HL. destruct (rank1_pair n m alpha gamma D N q HM HE HL) as [Wq [[E _]|[E _]]].
    + exists pa. split; [exact Ia|]. split; [now rewrite E|]. destruct (Hp pa Ia) as [W _]. now rewrite W.
    + exists pb. split; [exact Ib|]. split; [now rewrite E|]. destruct (Hp pb Ib) as [W _]. now rewrite W.
Qed.

(** ** Selecting *)
Lemma tol8_pos : 0 < tol8. Proof. unfold tol8. apply Rinv_0_lt_compat, pow_lt. lra. Qed.
Lemma tol8_small : tol8 <= / 1000. Proof. unfold tol8. apply Rinv_le_contravar; lra. Qed.
Lemma tol4_pos : 0 < tol4. Proof. unfold tol4. apply Rinv_0_lt_compat, pow_lt. lra. Qed.
Lemma near_in x tol l p : In p (near x tol l) <-> In p l /\ Rabs (wr p - x) < tol.
Proof.
  unfold near. rewrite filter_In. split; intros [H1 H2]; split; auto.
  - destruct (Rlt_dec (Rabs (wr p - x)) tol); [assumption|discriminate].
  - destruct (Rlt_dec (Rabs (wr p - x)) tol); [reflexivity|contradiction].
Qed.
Lemma nonzero_in l p : In p (nonzero l) <-> In p l /\ tol8 < Rabs (wr p).
Proof.
  unfold nonzero, tol8. rewrite filter_In. split; intros [H1 H2]; split; auto.
  - destruct (Rlt_dec (/ 10 ^ 8) (Rabs (wr p))); [assumption|discriminate].
  - destruct (Rlt_dec (/ 10 ^ 8) (Rabs (wr p))); [reflexivity|contradiction].
Qed.
Lemma first_some l : (exists p, In p l) -> exists p, In p l /\ first l = Some (vr p).
Proof. intros [p Hp]. destruct l as [|q l]; [destruct Hp|]. exists q. split; [now left|reflexivity]. Qed.
Lemma final_some l : (exists p, In p l) -> exists p, In p l /\ final l = Some (vr p).
Proof.
  intros [p Hp]. unfold final. apply in_rev in Hp. destruct (rev l) as [|q r] eqn:E; [destruct Hp|]. exists q. split; [|reflexivity].
  apply in_rev. rewrite E. now left.
Qed.
Lemma final_last f (l : list epair) p : f p = true -> final (filter f (l ++ [p])) = Some (vr p).
Proof. intros H. unfold final. rewrite filter_app. cbn [filter]. rewrite H. rewrite rev_app_distr. reflexivity. Qed.
Lemma near_exact x tol l p : 0 < tol -> In p l -> wr p = x -> In p (near x tol l).
Proof. intros Ht Hi E. apply near_in. split; [exact Hi|]. rewrite E, Rminus_diag_eq by reflexivity. now rewrite Rabs_R0. Qed.
Lemma near_last x l p : wr p = x -> final (near x tol8 (l ++ [p])) = Some (vr p).
Proof.
  intros E. apply final_last. destruct (Rlt_dec (Rabs (wr p - x)) tol8) as [|H]; [reflexivity|]. exfalso. apply H.
  rewrite E, Rminus_diag_eq by reflexivity. rewrite Rabs_R0. apply tol8_pos.
Qed.
Lemma nonzero_last l p : tol8 < Rabs (wr p) -> final (nonzero (l ++ [p])) = Some (vr p).
Proof. intros E. apply final_last. destruct (Rlt_dec (/ 10 ^ 8) (Rabs (wr p))) as [|H]; [reflexivity|]. now exfalso. Qed.
(** the eigenvectors of a right list *)
Lemma right_pair n m l p : eig_right n m l -> In p l -> eigenpair n m p /\ length2 n p <> 0.
Proof. intros (_ & H & _) Hp. destruct (H p Hp) as (A & B & _). split; [exact A|]. rewrite B. lra. Qed.
Lemma right_unit n m l p : eig_right n m l -> In p l -> wi p = 0 -> inner n (vr p) (vr p) = 1.
Proof.
  intros (_ & H & _) Hp W. destruct (H p Hp) as (_ & B & C). unfold length2 in B.
  rewrite (inner_all0 n (vi p) (vi p)) in B by (apply C, W). lra.
Qed.
Lemma right_has n m l w v : eig_right n m l -> eigenpair n m (EPair w 0 v (fun _ => 0)) -> inner n v v <> 0 ->
  exists p, In p l /\ wr p = w /\ wi p = 0.
Proof.
  intros (_ & _ & H) E N. apply (H _ E). unfold length2. cbn [vr vi]. rewrite (inner_all0 n (fun _ => 0) (fun _ => 0)) by reflexivity.
  lra.
Qed.

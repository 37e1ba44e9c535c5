From Coq Require Import R_Ifp.
From Verif Require Import Base ModelField ModelGrid ModelTrans ModelLayout ProofEuler ProofHarm ModelSmooth SpecSmooth.
Open Scope R_scope.
Notation length := List.length.

(** ** angles *)
Lemma trig_period_Z (k : Z) x : cos (x + 2 * PI * IZR k) = cos x /\ sin (x + 2 * PI * IZR k) = sin x.
Proof.
  assert (P : forall (m : nat) y, cos (y + 2 * PI * INR m) = cos y /\ sin (y + 2 * PI * INR m) = sin y).
  { intros m y. replace (2 * PI * INR m) with (2 * INR m * PI) by ring. split; [apply cos_period|apply sin_period]. }
  destruct (Z.le_gt_cases 0 k) as [H|H].
  - rewrite <- (Z2Nat.id k H), <- INR_IZR_INZ. apply P.
  - assert (E : IZR k = - INR (Z.to_nat (- k))).
    { rewrite INR_IZR_INZ, Z2Nat.id by lia. rewrite opp_IZR. ring. }
    rewrite E. destruct (P (Z.to_nat (- k)) (x + 2 * PI * - INR (Z.to_nat (- k)))) as [A B].
    replace (x + 2 * PI * - INR (Z.to_nat (- k)) + 2 * PI * INR (Z.to_nat (- k))) with x in * by ring. split; congruence.
Qed.
Lemma fmod_spec x : 0 <= fmod x (2 * PI) < 2 * PI /\ cos (fmod x (2 * PI)) = cos x /\ sin (fmod x (2 * PI)) = sin x.
Proof.
  pose proof PI_RGT_0 as HP. unfold fmod. destruct (base_fp (x / (2 * PI))) as [A B]. split; [split; nra|].
  unfold frac_part. set (k := Int_part (x / (2 * PI))).
  replace (2 * PI * (x / (2 * PI) - IZR k)) with (x + 2 * PI * IZR (- k)) by (rewrite opp_IZR; field; lra).
  apply trig_period_Z.
Qed.
Lemma angle_unique2 a b : 0 <= a < 2 * PI -> 0 <= b < 2 * PI -> cos a = cos b -> sin a = sin b -> a = b.
Proof.
  intros Ha Hb Hc Hs. assert (E : PI - a = PI - b); [|lra].
  assert (C : forall t, cos (PI - t) = - cos t /\ sin (PI - t) = sin t).
  { intros t. rewrite cos_minus, sin_minus, cos_PI, sin_PI. split; ring. }
  destruct (C a) as [Ca Sa], (C b) as [Cb Sb].
  apply angle_unique; [lra|lra|rewrite Ca, Cb, Hc; reflexivity|rewrite Sa, Sb, Hs; reflexivity].
Qed.
Lemma dist_pos p q : p <> q -> 0 < dist p q.
Proof.
  intros H. unfold dist. apply sqrt_lt_R0. destruct p as [a b], q as [c d]. cbn [fst snd].
  assert (Q : forall t, t <> 0 -> 0 < t ^ 2) by (intros t Ht; rewrite <- Rsqr_pow2; now apply Rsqr_pos_lt).
  destruct (Req_EM_T a c) as [->|N]; [|pose proof (Q (c - a) ltac:(lra)); pose proof (pow2_ge_0 (d - b)); lra].
  destruct (Req_EM_T b d) as [->|N]; [congruence|]. pose proof (Q (d - b) ltac:(lra)). pose proof (pow2_ge_0 (c - c)). lra.
Qed.
Lemma heading p q : p <> q -> let a := atan2 (snd q - snd p) (fst q - fst p) in
  cos a = (fst q - fst p) / dist p q /\ sin a = (snd q - snd p) / dist p q.
Proof.
  intros H. pose proof (dist_pos p q H) as D. cbv zeta. destruct (atan2_spec (snd q - snd p) (fst q - fst p)) as [A B].
  - unfold dist in D. apply sqrt_lt_0_alt. rewrite sqrt_0.
    replace ((fst q - fst p) * (fst q - fst p) + (snd q - snd p) * (snd q - snd p)) with ((fst q - fst p) ^ 2 + (snd q - snd p) ^ 2) by ring. exact D.
  - rewrite A, B. unfold dist.
    replace ((fst q - fst p) * (fst q - fst p) + (snd q - snd p) * (snd q - snd p)) with ((fst q - fst p) ^ 2 + (snd q - snd p) ^ 2) by ring. auto.
Qed.
Lemma turn_iff p q r theta : p <> q -> q <> r ->
  turn p q r theta <-> theta = fmod (atan2 (snd r - snd q) (fst r - fst q) - atan2 (snd q - snd p) (fst q - fst p)) (2 * PI).
Proof.
  intros H1 H2. destruct (heading p q H1) as [C1 S1]. destruct (heading q r H2) as [C2 S2]. cbv zeta in *.
  set (a1 := atan2 (snd q - snd p) (fst q - fst p)) in *. set (a2 := atan2 (snd r - snd q) (fst r - fst q)) in *.
  destruct (fmod_spec (a2 - a1)) as (F & FC & FS). unfold turn. rewrite <- C1, <- S1, <- C2, <- S2.
  pose proof (sin2_cos2 a1) as T. unfold Rsqr in T. split.
  - intros (R & E1 & E2). apply angle_unique2; [exact R|exact F| |].
    + rewrite FC, cos_minus, E1, E2. transitivity (cos theta * (sin a1 * sin a1 + cos a1 * cos a1)); [rewrite T; ring|ring].
    + rewrite FS, sin_minus, E1, E2. transitivity (sin theta * (sin a1 * sin a1 + cos a1 * cos a1)); [rewrite T; ring|ring].
  - intros ->. split; [exact F|]. rewrite FC, FS, cos_minus, sin_minus. split.
    + transitivity (cos a2 * (sin a1 * sin a1 + cos a1 * cos a1)); [rewrite T; ring|ring].
    + transitivity (sin a2 * (sin a1 * sin a1 + cos a1 * cos a1)); [rewrite T; ring|ring].
Qed.
Lemma turn_unique p q r s t : p <> q -> q <> r -> turn p q r s -> turn p q r t -> s = t.
Proof. intros H1 H2 A B. apply turn_iff in A; auto. apply turn_iff in B; auto. congruence. Qed.

(** ** the parameters *)
Lemma sumR_app (l l' : list R) : sumR (l ++ l') = sumR l + sumR l'.
Proof. unfold sumR. induction l as [|a l IH]; cbn; [ring|]. rewrite IH. ring. Qed.
Lemma before_pos pts i : (0 < i < length pts)%nat -> before pts i = (i - 1)%nat.
Proof.
  intros H. unfold before. replace (i + length pts - 1)%nat with (i - 1 + 1 * length pts)%nat by lia.
  rewrite Nat.mod_add by lia. apply Nat.mod_small. lia.
Qed.
Lemma after_small pts i : (i + 1 < length pts)%nat -> after pts i = (i + 1)%nat.
Proof. intros H. unfold after. apply Nat.mod_small. exact H. Qed.
Lemma after_last pts : pts <> [] -> after pts (length pts - 1) = 0%nat.
Proof.
  intros H. unfold after. assert (length pts <> 0)%nat by (destruct pts; [congruence|discriminate]).
  replace (length pts - 1 + 1)%nat with (length pts) by lia. now apply Nat.mod_same.
Qed.
Lemma before_0 pts : pts <> [] -> before pts 0 = (length pts - 1)%nat.
Proof.
  intros H. assert (length pts <> 0)%nat by (destruct pts; [congruence|discriminate]).
  unfold before. apply Nat.mod_small. lia.
Qed.
Lemma dxy_pos pts i : (0 < i < length pts)%nat ->
  dx pts i = fst (vertex pts i) - fst (vertex pts (i - 1)) /\ dy pts i = snd (vertex pts i) - snd (vertex pts (i - 1)).
Proof. intros H. unfold dx, dy, x_, y_. rewrite before_pos by exact H. auto. Qed.
Lemma dxy_0 pts : closed pts -> dx pts 0 = 0 /\ dy pts 0 = 0.
Proof. intros [H E]. unfold dx, dy, x_, y_. rewrite before_0 by exact H. unfold vertex in E. rewrite <- E. split; ring. Qed.
Lemma u0_length pts i : closed pts -> (i < length pts)%nat -> u0 pts i = path_length pts i.
Proof.
  intros Hc. assert (D0 : du pts 0 = 0).
  { unfold du. destruct (dxy_0 pts Hc) as [-> ->]. replace (0 ^ 2 + 0 ^ 2) with 0 by ring. apply sqrt_0. }
  unfold u0. rewrite D0. induction i as [|i IH]; intros Hi.
  - cbn. rewrite D0. ring.
  - replace (S i + 1)%nat with (S (i + 1)) by lia. rewrite seq_S, map_app, sumR_app. cbn [map plus path_length].
    assert (E : du pts (i + 1) = dist (vertex pts i) (vertex pts (S i))).
    { unfold du, dist. destruct (dxy_pos pts (i + 1) ltac:(lia)) as [-> ->]. replace (i + 1 - 1)%nat with i by lia. now replace (i + 1)%nat with (S i) by lia. }
    replace (sumR [du pts (i + 1)]) with (du pts (i + 1)) by (unfold sumR; cbn; ring). rewrite E.
    rewrite <- IH by lia. ring.
Qed.
Lemma u_spec pts i : closed pts -> (i < length pts)%nat -> u_ pts i = path_length pts i / path_length pts (length pts - 1).
Proof. intros Hc Hi. unfold u_. rewrite !u0_length by (auto; lia). reflexivity. Qed.
Lemma path_length_mono pts i j : (i <= j)%nat -> path_length pts i <= path_length pts j.
Proof.
  intros H. induction H as [|j H IH]; [lra|]. cbn [path_length]. unfold dist at 1.
  pose proof (sqrt_pos ((fst (vertex pts (S j)) - fst (vertex pts j)) ^ 2 + (snd (vertex pts (S j)) - snd (vertex pts j)) ^ 2)). lra.
Qed.

(** ** the weights *)
Lemma t_inner pts tol i : (0 < i)%nat -> (i + 1 < length pts)%nat -> edge_ok pts (i - 1) -> edge_ok pts i ->
  t_ pts tol i = true <-> turns_less pts tol i.
Proof.
  intros Hi Hn E1 E2. unfold edge_ok in *. replace (i - 1 + 1)%nat with i in E1 by lia.
  assert (A : a_ pts (after pts i) - a_ pts i =
    atan2 (snd (vertex pts (i + 1)) - snd (vertex pts i)) (fst (vertex pts (i + 1)) - fst (vertex pts i)) -
    atan2 (snd (vertex pts i) - snd (vertex pts (i - 1))) (fst (vertex pts i) - fst (vertex pts (i - 1)))).
  { rewrite after_small by exact Hn. unfold a_. destruct (dxy_pos pts (i + 1) ltac:(lia)) as [-> ->].
    destruct (dxy_pos pts i ltac:(lia)) as [-> ->]. now replace (i + 1 - 1)%nat with i by lia. }
  unfold t_. rewrite A. set (z := atan2 _ _ - atan2 _ _) in *. destruct (fmod_spec z) as (F & _). rewrite Rabs_pos_eq by lra.
  unfold turns_less. destruct (Rlt_dec (fmod z (2 * PI)) tol) as [L|L].
  - split; [|reflexivity]. intros _. exists (fmod z (2 * PI)). split; [|exact L]. apply turn_iff; auto.
  - split; [discriminate|]. intros (theta & T & L'). apply turn_iff in T; auto. fold z in T. subst theta. contradiction.
Qed.
Lemma t_first pts tol : closed pts -> (2 <= length pts)%nat -> edge_ok pts 0 ->
  t_ pts tol 0 = true <-> exists theta, 0 <= theta < 2 * PI /\ theta < tol /\
    fst (vertex pts 1) - fst (vertex pts 0) = cos theta * dist (vertex pts 0) (vertex pts 1) /\
    snd (vertex pts 1) - snd (vertex pts 0) = sin theta * dist (vertex pts 0) (vertex pts 1).
Proof.
  intros Hc Hn E. unfold edge_ok in E. cbn [plus] in E.
  assert (A0 : a_ pts 0 = 0). { unfold a_. destruct (dxy_0 pts Hc) as [-> ->]. unfold atan2. destruct (Rlt_dec 0 0); [lra|]. reflexivity. }
  unfold t_. rewrite A0, after_small by lia. cbn [plus]. unfold a_. destruct (dxy_pos pts 1 ltac:(lia)) as [-> ->]. cbn [Nat.sub]. rewrite Rminus_0_r.
  destruct (heading _ _ E) as [C S]. cbv zeta in *. set (z := atan2 _ _) in *. destruct (fmod_spec z) as (F & FC & FS). rewrite Rabs_pos_eq by lra.
  pose proof (dist_pos _ _ E) as D.
  destruct (Rlt_dec (fmod z (2 * PI)) tol) as [L|L].
  - split; [|reflexivity]. intros _. exists (fmod z (2 * PI)). split; [exact F|]. split; [exact L|]. rewrite FC, FS, C, S. split; field; lra.
  - split; [discriminate|]. intros (theta & R & L' & E1 & E2). exfalso. apply L.
    rewrite (angle_unique2 (fmod z (2 * PI)) theta F R); [exact L'| |].
    + rewrite FC, C, E1. field. lra.
    + rewrite FS, S, E2. field. lra.
Qed.

Section Call.
Context {T : Type}.
Variables (splprep : fit -> T * Z) (knots_of : T -> list R) (splev : T -> list R -> list p2)
  (pts : list p2) (smoothing : R) (straight corner : option R) (tol : R) (k : nat) (knots : option nat).
Let call_ := smooth splprep knots_of splev pts smoothing straight corner tol k knots.
Definition the_fit : fit :=
  let n := length pts in
  Fit pts (map (w_ pts straight corner tol) (seq 0 n)) (map (u_ pts) (seq 0 n)) (INR n * smoothing) k (n + 2).
Definition params (tck : T) : list R :=
  match knots with
  | None => middle k (knots_of tck)
  | Some m => linspace 0 1 m
  end.
Lemma smooth_closed : closed pts ->
  call_ = let '(tck, ier) := splprep the_fit in if (ier <=? 0)%Z then Ok (splev tck (params tck)) else Raise AssertionError.
Proof.
  intros [Hn E]. unfold call_, smooth. destruct pts as [|p0 r] eqn:EP; [congruence|]. rewrite <- EP in *.
  assert (V0 : vertex pts 0 = p0) by (rewrite EP; reflexivity). rewrite V0 in E. unfold vertex in E. rewrite <- E.
  destruct (Req_EM_T (fst p0) (fst p0)); [|congruence]. destruct (Req_EM_T (snd p0) (snd p0)); [|congruence]. reflexivity.
Qed.
Lemma smooth_open : pts <> [] -> vertex pts 0 <> vertex pts (length pts - 1) -> call_ = Raise AssertionError.
Proof.
  intros Hn E. unfold call_, smooth. destruct pts as [|p0 r] eqn:EP; [congruence|]. rewrite <- EP in *.
  assert (V0 : vertex pts 0 = p0) by (rewrite EP; reflexivity). rewrite V0 in E. unfold vertex in E.
  cbv zeta. destruct (Req_EM_T (fst p0) _) as [A|]; [|reflexivity]. destruct (Req_EM_T (snd p0) _) as [B|]; [|reflexivity].
  exfalso. apply E. destruct p0, (nth _ _ _). cbn in *. congruence.
Qed.
Lemma nth_w i : (i < length pts)%nat -> nth i (f_w the_fit) 0 = w_ pts straight corner tol i.
Proof.
  intros Hi. unfold the_fit. cbn [f_w]. rewrite (nth_indep _ 0 (w_ pts straight corner tol 0)) by (now rewrite map_length, seq_length).
  rewrite map_nth, seq_nth by exact Hi. reflexivity.
Qed.
Lemma nth_u i : (i < length pts)%nat -> nth i (f_u the_fit) 0 = u_ pts i.
Proof.
  intros Hi. unfold the_fit. cbn [f_u]. rewrite (nth_indep _ 0 (u_ pts 0)) by (now rewrite map_length, seq_length).
  rewrite map_nth, seq_nth by exact Hi. reflexivity.
Qed.
End Call.

From Coq Require Import Permutation.
From Verif Require Import Base ModelTrans ModelHarm SpecHarm ProofEuler.
From Coquelicot Require Import Coquelicot.
Open Scope R_scope.
Notation length := List.length.

(** ** C71 *)
Lemma zrange_in n lo hi : In n (zrange lo hi) <-> (lo <= n < hi)%Z.
Proof.
  unfold zrange. rewrite in_map_iff. split.
  - intros (k & <- & H). apply in_seq in H. lia.
  - intros H. exists (Z.to_nat (n - lo)). split; [lia|]. apply in_seq. lia.
Qed.
Lemma nodup_map_in {A B} (f : A -> B) l : NoDup l -> (forall a b, In a l -> In b l -> f a = f b -> a = b) -> NoDup (map f l).
Proof.
  induction 1 as [|a l N _ IH]; intros H; cbn [map]; constructor.
  - intros K. apply in_map_iff in K as (b & E & Hb). apply N. rewrite <- (H b a); [exact Hb|now right|now left|exact E].
  - apply IH. intros b c Hb Hc. apply H; now right.
Qed.
Lemma nodup_app {A} (l m : list A) : NoDup l -> NoDup m -> (forall a, In a l -> ~ In a m) -> NoDup (l ++ m).
Proof.
  induction 1 as [|a l N _ IH]; intros M D; [exact M|]. cbn [app]. constructor.
  - intros H. apply in_app_or in H as [H|H]; [contradiction|]. apply (D a); [now left|exact H].
  - apply IH; [exact M|]. intros b Hb. apply D. now right.
Qed.
Lemma zrange_nodup lo hi : NoDup (zrange lo hi).
Proof. unfold zrange. apply nodup_map_in; [apply seq_NoDup|]. intros a b _ _ H. lia. Qed.
Lemma nodup_flat {A B} (f : A -> list B) l : NoDup l -> (forall a, In a l -> NoDup (f a)) -> (forall a a' b, In a l -> In a' l -> In b (f a) -> In b (f a') -> a = a') -> NoDup (flat_map f l).
Proof.
  induction 1 as [|a l N _ IH]; intros F D; [constructor|]. cbn [flat_map]. apply nodup_app; [apply F; now left| |].
  - apply IH; [intros b Hb; apply F; now right|]. intros b c x Hb Hc. apply D; now right.
  - intros x Hx Hf. apply in_flat_map in Hf as (b & Hb & Hxb). apply N. rewrite (D a b x); [exact Hb|now left|now right|exact Hx|exact Hxb].
Qed.
Lemma indices_in N n m p q : In (n, m, p, q) (indices N) <-> valid_index N n m /\ (p, q) = slot N n m.
Proof.
  unfold indices, valid_index, slot. rewrite in_flat_map. split.
  - intros (n' & Hn & H). apply zrange_in in Hn. apply in_app_or in H as [H|H]; apply in_map_iff in H as (m' & [= <- <- <- <-] & Hm); apply zrange_in in Hm.
    + split; [lia|]. destruct (Z.leb_spec 0 m'); [lia|]. f_equal. lia.
    + split; [lia|]. destruct (Z.leb_spec 0 m'); [|lia]. reflexivity.
  - intros [[Hn Hm] E]. exists n. split; [apply zrange_in; lia|]. apply in_or_app. destruct (Z.leb_spec 0 m) as [L|L]; injection E as -> ->.
    + right. apply in_map_iff. exists m. split; [reflexivity|apply zrange_in; lia].
    + left. apply in_map_iff. exists m. split; [f_equal; lia|apply zrange_in; lia].
Qed.
Lemma indices_nodup N : NoDup (indices N).
Proof.
  unfold indices. apply nodup_flat; [apply zrange_nodup| |].
  - intros n _. apply nodup_app.
    + apply nodup_map_in; [apply zrange_nodup|]. intros a b _ _ [= H]. lia.
    + apply nodup_map_in; [apply zrange_nodup|]. intros a b _ _ [= H]. lia.
    + intros x H K. apply in_map_iff in H as (m & <- & Hm). apply in_map_iff in K as (m' & [= E] & Hm'). apply zrange_in in Hm, Hm'. lia.
  - intros n n' x _ _ H K. apply in_app_or in H, K. destruct H as [H|H], K as [K|K]; apply in_map_iff in H as (m & <- & _); apply in_map_iff in K as (m' & [= E] & _); congruence.
Qed.
Lemma slot_inj N n m n' m' : valid_index N n m -> valid_index N n' m' -> slot N n m = slot N n' m' -> n = n' /\ m = m'.
Proof.
  unfold valid_index, slot. intros H H'. destruct (Z.leb_spec 0 m), (Z.leb_spec 0 m'); intros [= A B]; lia.
Qed.
Lemma slot_onto N p q : (0 <= p < N)%Z -> (0 <= q < N)%Z -> exists n m, valid_index N n m /\ slot N n m = (p, q).
Proof.
  intros Hp Hq. unfold valid_index, slot. destruct (Z_le_gt_dec p q) as [L|L].
  - exists q, p. split; [lia|]. destruct (Z.leb_spec 0 p); [reflexivity|lia].
  - exists (N - 1 - q)%Z, (p - N)%Z. split; [lia|]. destruct (Z.leb_spec 0 (p - N)); [lia|]. f_equal; lia.
Qed.
Lemma slot_range N n m : valid_index N n m -> (0 <= fst (slot N n m) < N)%Z /\ (0 <= snd (slot N n m) < N)%Z.
Proof. unfold valid_index, slot. intros H. destruct (Z.leb_spec 0 m); cbn; lia. Qed.
Lemma bijection N :
  (forall n m p q, In (n, m, p, q) (indices N) <-> valid_index N n m /\ (p, q) = slot N n m) /\ NoDup (indices N) /\
  (forall n m, valid_index N n m -> (0 <= fst (slot N n m) < N)%Z /\ (0 <= snd (slot N n m) < N)%Z) /\
  (forall n m n' m', valid_index N n m -> valid_index N n' m' -> slot N n m = slot N n' m' -> n = n' /\ m = m') /\
  (forall p q, (0 <= p < N)%Z -> (0 <= q < N)%Z -> exists n m, valid_index N n m /\ slot N n m = (p, q)).
Proof. split; [apply indices_in|]. split; [apply indices_nodup|]. split; [apply slot_range|]. split; [apply slot_inj|apply slot_onto]. Qed.
(** the arrays n and m *)
Lemma fill_spec N junk p q n m : (p < N)%nat -> (q < N)%nat -> valid_index (Z.of_nat N) n m -> slot (Z.of_nat N) n m = (Z.of_nat p, Z.of_nat q) ->
  fill (indices (Z.of_nat N)) junk p q = (n, m).
Proof.
  intros Hp Hq V S. unfold fill.
  assert (G : forall l acc, incl l (indices (Z.of_nat N)) -> (acc = (n, m) \/ In (n, m, Z.of_nat p, Z.of_nat q) l) ->
    fold_left (fun acc i => let '(n, m, p', q') := i in if (Z.eqb p' (Z.of_nat p) && Z.eqb q' (Z.of_nat q))%bool then (n, m) else acc) l acc = (n, m)).
  { induction l as [|[[[n' m'] p'] q'] l IH]; intros acc I H; [destruct H as [H|[]]; exact H|]. cbn [fold_left]. apply IH; [intros x Hx; apply I; now right|].
    destruct (Z.eqb_spec p' (Z.of_nat p)) as [Ep|Ep]; [destruct (Z.eqb_spec q' (Z.of_nat q)) as [Eq|Eq]|]; cbn [andb].
    - left. assert (V' := I _ (or_introl eq_refl)). apply indices_in in V' as [V' S']. destruct (slot_inj (Z.of_nat N) n' m' n m) as [-> ->]; congruence.
    - destruct H as [H|[H|H]]; [now left|congruence|now right].
    - destruct H as [H|[H|H]]; [now left|congruence|now right]. }
  apply G; [apply incl_refl|]. right. apply indices_in. split; [exact V|now rewrite S].
Qed.

(** ** C72 *)
Lemma sqrt_sq_sum a b : sqrt (a ^ 2 + b ^ 2) ^ 2 = a ^ 2 + b ^ 2.
Proof. apply pow2_sqrt. nra. Qed.
Lemma atan2_range y x : - PI < atan2 y x <= PI.
Proof.
  unfold atan2. pose proof PI_RGT_0. pose proof (atan_bound (y / x)).
  destruct (Rlt_dec 0 x); [lra|]. destruct (Rlt_dec x 0) as [Hx|Hx].
  - destruct (Rle_dec 0 y) as [Hy|Hy].
    + assert (y / x <= 0). { unfold Rdiv. pose proof (Rinv_lt_0_compat x Hx). nra. }
      assert (atan (y / x) <= 0). { destruct (Req_dec (y / x) 0) as [->|]; [rewrite atan_0; lra|]. rewrite <- atan_0. left. apply atan_increasing. lra. }
      lra.
    + assert (0 < y / x). { unfold Rdiv. pose proof (Rinv_lt_0_compat x Hx). nra. }
      assert (0 < atan (y / x)). { rewrite <- atan_0. apply atan_increasing. lra. }
      lra.
  - destruct (Rlt_dec 0 y); [lra|]. destruct (Rlt_dec y 0); lra.
Qed.
Lemma atan2_nonneg y x : 0 <= y -> 0 <= atan2 y x.
Proof.
  intros Hy. unfold atan2. pose proof PI_RGT_0. pose proof (atan_bound (y / x)).
  destruct (Rlt_dec 0 x) as [Hx|Hx].
  - assert (0 <= y / x) by (unfold Rdiv; pose proof (Rinv_0_lt_compat x Hx); nra). destruct (Req_dec (y / x) 0) as [->|]; [rewrite atan_0; lra|]. rewrite <- atan_0. left. apply atan_increasing. lra.
  - destruct (Rlt_dec x 0); [destruct (Rle_dec 0 y); lra|]. destruct (Rlt_dec 0 y); [lra|]. destruct (Rlt_dec y 0); lra.
Qed.
Lemma to_and_back x y z : forall r theta phi, cartesian_to_spherical x y z = (r, theta, phi) ->
  0 <= r /\ 0 <= theta <= PI /\ - PI < phi <= PI /\ r ^ 2 = x ^ 2 + y ^ 2 + z ^ 2 /\ spherical_to_cartesian r theta phi = (x, y, z).
Proof.
  intros r theta phi. unfold cartesian_to_spherical. cbv zeta. set (s := sqrt (x ^ 2 + y ^ 2)).
  assert (Hs : s ^ 2 = x ^ 2 + y ^ 2) by apply sqrt_sq_sum. assert (s0 : 0 <= s) by apply sqrt_pos.
  rewrite <- Hs. intros E. apply pair_equal_spec in E as [E <-]. apply pair_equal_spec in E as [<- <-].
  split; [apply sqrt_pos|]. split; [split; [now apply atan2_nonneg|apply atan2_range]|]. split; [apply atan2_range|]. split; [rewrite sqrt_sq_sum; lra|].
  unfold spherical_to_cartesian, cis, Re, Im. cbn [fst snd].
  destruct (Req_dec (s ^ 2 + z ^ 2) 0) as [Z|Z].
  - assert (s = 0) by nra. assert (z = 0) by nra. assert (x = 0) by nra. assert (y = 0) by nra. rewrite Z, sqrt_0. subst x y z. repeat f_equal; ring.
  - assert (P : 0 < s ^ 2 + z ^ 2) by nra. destruct (atan2_spec s z) as [Ct St]; [nra|]. rewrite Ct, St. replace (z * z + s * s) with (s ^ 2 + z ^ 2) by ring. assert (Q := sqrt_lt_R0 _ P).
    set (r := sqrt (s ^ 2 + z ^ 2)) in *. replace (r * (s / r)) with s by (field; lra). replace (r * (z / r)) with z by (field; lra).
    destruct (Req_dec s 0) as [S0|S0].
    + assert (x = 0) by nra. assert (y = 0) by nra. subst x y. rewrite S0. repeat f_equal; ring.
    + destruct (atan2_spec y x) as [Cp Sp]; [nra|]. rewrite Cp, Sp. replace (x * x + y * y) with (s ^ 2) by lra. rewrite (sqrt_pow2 s) by exact s0. repeat f_equal; field; exact S0.
Qed.
Lemma angle_unique a b : - PI < a <= PI -> - PI < b <= PI -> cos a = cos b -> sin a = sin b -> a = b.
Proof.
  intros Ha Hb Hc Hs. assert (C1 : cos (a - b) = 1) by (rewrite cos_minus, Hc, Hs; pose proof (sin2_cos2 b); unfold Rsqr in *; lra).
  assert (S0 : sin ((a - b) / 2) = 0). { assert (K := cos_2a_sin ((a - b) / 2)). replace (2 * ((a - b) / 2)) with (a - b) in K by field. nra. }
  destruct (Rle_dec b a) as [L|L].
  - destruct (Rle_lt_or_eq_dec b a L) as [L'|]; [|congruence]. exfalso. pose proof (sin_gt_0 ((a - b) / 2)). lra.
  - exfalso. assert (sin ((b - a) / 2) = 0) by (replace ((b - a) / 2) with (- ((a - b) / 2)) by field; rewrite sin_neg; lra). pose proof (sin_gt_0 ((b - a) / 2)). lra.
Qed.
Lemma back_and_to r theta phi : 0 < r -> 0 < theta < PI -> - PI < phi <= PI ->
  let '(x, y, z) := spherical_to_cartesian r theta phi in cartesian_to_spherical x y z = (r, theta, phi).
Proof.
  intros Hr Ht Hp. unfold spherical_to_cartesian, cartesian_to_spherical, cis, Re, Im. cbn [fst snd]. assert (st : 0 < sin theta) by (apply sin_gt_0; lra).
  assert (E : (r * sin theta * cos phi) ^ 2 + (r * sin theta * sin phi) ^ 2 = (r * sin theta) ^ 2).
  { pose proof (sin2_cos2 phi) as H. unfold Rsqr in H. transitivity ((r * sin theta) ^ 2 * (sin phi * sin phi + cos phi * cos phi)); [ring|]. rewrite H. ring. }
  rewrite E. rewrite (sqrt_pow2 (r * sin theta)) by nra.
  assert (E2 : (r * sin theta) ^ 2 + (r * cos theta) ^ 2 = r ^ 2).
  { pose proof (sin2_cos2 theta) as H. unfold Rsqr in H. transitivity (r ^ 2 * (sin theta * sin theta + cos theta * cos theta)); [ring|]. rewrite H. ring. }
  rewrite E2, (sqrt_pow2 r) by lra. f_equal; [f_equal|].
  - destruct (atan2_spec (r * sin theta) (r * cos theta)) as [A B]; [nra|]. replace (r * cos theta * (r * cos theta) + r * sin theta * (r * sin theta)) with (r ^ 2) in A, B by (rewrite <- E2; ring). rewrite (sqrt_pow2 r) in A, B by lra.
    apply angle_unique; [apply atan2_range|lra| |]; [rewrite A|rewrite B]; field; lra.
  - destruct (atan2_spec (r * sin theta * sin phi) (r * sin theta * cos phi)) as [A B].
    { replace (r * sin theta * cos phi * (r * sin theta * cos phi) + r * sin theta * sin phi * (r * sin theta * sin phi)) with ((r * sin theta) ^ 2) by (rewrite <- E; ring). assert (0 < r * sin theta) by nra. nra. }
    replace (r * sin theta * cos phi * (r * sin theta * cos phi) + r * sin theta * sin phi * (r * sin theta * sin phi)) with ((r * sin theta) ^ 2) in A, B by (rewrite <- E; ring). rewrite (sqrt_pow2 (r * sin theta)) in A, B by nra.
    apply angle_unique; [apply atan2_range|lra| |]; [rewrite A|rewrite B]; field; split; lra.
Qed.

(** ** C73 *)
Lemma dsc_inverse d r theta phi : length d = 3%nat -> r <> 0 -> sin theta <> 0 ->
  (forall e, derivatives_spherical_cartesian d r theta phi "to_spherical" = Ok e -> derivatives_spherical_cartesian e r theta phi "to_cartesian" = Ok d) /\
  (forall e, derivatives_spherical_cartesian d r theta phi "to_cartesian" = Ok e -> derivatives_spherical_cartesian e r theta phi "to_spherical" = Ok d).
Proof.
  intros L Hr Hs. destruct d as [|a [|b [|c [|? ?]]]]; try discriminate. unfold derivatives_spherical_cartesian. cbn [String.eqb Ascii.eqb Bool.eqb bind].
  unfold to_spherical_matrix, to_cartesian_matrix. cbv zeta. assert (T := sin2_cos2 theta). assert (P := sin2_cos2 phi). unfold Rsqr in T, P.
  set (st := sin theta) in *. set (ct := cos theta) in *. set (sp := sin phi) in *. set (cp := cos phi) in *. cbn [map map2 sumR].
  assert (T' : ct * ct = 1 - st * st) by lra. assert (P' : cp * cp = 1 - sp * sp) by lra. clearbody st ct sp cp.
  split; intros e [= <-]; cbn [map map2 sumR]; f_equal; (f_equal; [|f_equal; [|f_equal]]); field [T' P']; try (split; assumption); assumption.
Qed.
Lemma dsc_columns r theta phi k : (k < 3)%nat ->
  is_derive (fun t => coord k (spherical_to_cartesian t theta phi)) r (nth 0 (nth k (to_cartesian_matrix r theta phi) []) 0) /\
  is_derive (fun t => coord k (spherical_to_cartesian r theta t)) phi (nth 1 (nth k (to_cartesian_matrix r theta phi) []) 0) /\
  is_derive (fun t => coord k (spherical_to_cartesian r t phi)) theta (nth 2 (nth k (to_cartesian_matrix r theta phi) []) 0).
Proof.
  intros Hk. unfold spherical_to_cartesian, to_cartesian_matrix, cis, Re, Im. cbv zeta. destruct k as [|[|[|k]]]; [| | |lia]; cbn [coord fst snd nth]; (split; [|split]); try apply (is_derive_const (V := R_NormedModule)); auto_derive; auto; ring.
Qed.
Lemma dsc_units r theta phi k : (k < 3)%nat ->
  exists c0 c1 c2,
  derivatives_spherical_cartesian [1; 0; 0] r theta phi "to_cartesian" = Ok c0 /\
  derivatives_spherical_cartesian [0; 1; 0] r theta phi "to_cartesian" = Ok c1 /\
  derivatives_spherical_cartesian [0; 0; 1] r theta phi "to_cartesian" = Ok c2 /\
  is_derive (fun t => coord k (spherical_to_cartesian t theta phi)) r (nth k c0 0) /\
  is_derive (fun t => coord k (spherical_to_cartesian r theta t)) phi (nth k c1 0) /\
  is_derive (fun t => coord k (spherical_to_cartesian r t phi)) theta (nth k c2 0).
Proof.
  intros Hk. destruct (dsc_columns r theta phi k Hk) as (A & B & D). do 3 eexists. split; [reflexivity|]. split; [reflexivity|]. split; [reflexivity|].
  assert (E : forall j, (j < 3)%nat -> forall d, d = tab 3 (fun i => if Nat.eqb i j then 1 else 0) -> nth k (map (fun row => sumR (map2 Rmult row d)) (to_cartesian_matrix r theta phi)) 0 = nth j (nth k (to_cartesian_matrix r theta phi) []) 0).
  { intros j Hj d ->. unfold to_cartesian_matrix. destruct k as [|[|[|k]]]; [| | |lia]; (destruct j as [|[|[|j]]]; [| | |lia]); cbn [map nth tab seq Nat.eqb map2 sumR]; ring. }
  split; [|split].
  - rewrite (E 0%nat); [exact A|lia|reflexivity].
  - rewrite (E 1%nat); [exact B|lia|reflexivity].
  - rewrite (E 2%nat); [exact D|lia|reflexivity].
Qed.
Lemma gradient_refuted : exists r theta phi e, 0 < r /\ sin theta <> 0 /\
  derivatives_spherical_cartesian [1; 0; 0] r theta phi "to_spherical" = Ok e /\
  exists dr dtheta dphi,
  is_derive (fun t => coord 0 (spherical_to_cartesian t theta phi)) r dr /\
  is_derive (fun t => coord 0 (spherical_to_cartesian r t phi)) theta dtheta /\
  is_derive (fun t => coord 0 (spherical_to_cartesian r theta t)) phi dphi /\
  e <> [dr; dtheta; dphi] /\ e <> [dr; dphi; dtheta].
Proof.
  exists 2, (PI / 2), (PI / 2). eexists. split; [lra|]. split; [rewrite sin_PI2; lra|]. split; [reflexivity|].
  destruct (dsc_columns 2 (PI / 2) (PI / 2) 0) as (A & B & D); [lia|]. do 3 eexists. split; [exact A|]. split; [exact D|]. split; [exact B|].
  cbn [map to_spherical_matrix to_cartesian_matrix map2 sumR nth]. rewrite sin_PI2, cos_PI2. split; intros [= E1 E2 E3]; lra.
Qed.

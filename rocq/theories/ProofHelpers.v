From Verif Require Import Base ModelHarm SpecHarm ProofSynth ModelHelpers SpecHelpers.
Open Scope R_scope.
Notation length := List.length.

(** ** norm *)
Lemma sumR_nonneg (l : list R) : (forall x, In x l -> 0 <= x) -> 0 <= sumR l.
Proof.
  induction l as [|a l IH]; intros H; cbn [sumR fold_right]; [lra|].
  pose proof (H a (or_introl eq_refl)). assert (0 <= sumR l) by (apply IH; intros; apply H; now right). unfold sumR in *. cbn. lra.
Qed.
Lemma norm_last x axis a : means axis (length (dims x)) a -> S a = length (dims x) ->
  exists b, norm x axis = Ok b /\ lengths_along x a b.
Proof.
  intros _ Ha. unfold norm. destruct (rev (dims x)) as [|n r] eqn:E.
  { apply (f_equal (@length nat)) in E. rewrite rev_length in E. cbn in E. lia. }
  assert (ED : dims x = rev r ++ [n]) by (rewrite <- (rev_involutive (dims x)), E; reflexivity).
  assert (La : a = length (rev r)) by (rewrite ED, app_length in Ha; cbn in Ha; lia).
  eexists. split; [reflexivity|]. split; cbn [dims item].
  - unfold without. rewrite ED, La. rewrite firstn_app, Nat.sub_diag, firstn_all. cbn [firstn]. rewrite skipn_all2 by (rewrite app_length; cbn; lia).
    now rewrite !app_nil_r.
  - intros idx Hi. split; [apply sqrt_pos|].
    assert (Li : length idx = a). { rewrite La. clear -Hi. induction Hi; cbn; congruence. }
    rewrite ED, La, app_nth2, Nat.sub_diag by lia. cbn [nth].
    assert (EQ : map (fun j => item x (put_at (length (rev r)) j idx) ^ 2) (seq 0 n) = map (fun j => item x (idx ++ [j]) * item x (idx ++ [j])) (seq 0 n)).
    { apply map_ext. intros j. unfold put_at. rewrite <- La, firstn_all2, skipn_all2 by lia. ring. }
    rewrite EQ. rewrite <- Rsqr_pow2. apply Rsqr_sqrt. apply sumR_nonneg. intros y Hy. apply in_map_iff in Hy. destruct Hy as (j & <- & _). nra.
Qed.
Lemma norm_axis x axis axis' : norm x axis = norm x axis'.
Proof. reflexivity. Qed.
Lemma norm_scalar x axis : dims x = [] -> norm x axis = Raise ValueError.
Proof. intros H. unfold norm. rewrite H. reflexivity. Qed.

(** ** DummyPool *)
Lemma run_calls_app {S A} (t1 t2 : list (call S A)) : forall s,
  run_calls (t1 ++ t2) s = let '(v1, s1) := run_calls t1 s in let '(v2, s2) := run_calls t2 s1 in (v1 ++ v2, s2).
Proof.
  induction t1 as [|t t1 IH]; intros s; cbn [run_calls app].
  - destruct (run_calls t2 s). reflexivity.
  - destruct (t s) as [v s']. rewrite IH. destruct (run_calls t1 s') as [v1 s1]. destruct (run_calls t2 s1) as [v2 s2]. reflexivity.
Qed.
Lemma only_tail {S A} (o : op S A) ops : only_pool (o :: ops) -> only_pool ops.
Proof. intros H f Hf. apply (H f). now right. Qed.
Lemma lazy_general {S A} (d : call S A) (ops : list (op S A)) : forall h s, valid (length h) ops -> only_pool ops ->
  dummy_pool ops h s = run_calls (map (fun n => nth n (h ++ submitted ops) d) (gets ops)) s.
Proof.
  induction ops as [|[t|n|f] ops IH]; intros h s HV HO; cbn [valid] in HV.
  - reflexivity.
  - cbn [dummy_pool gets submitted flat_map app]. rewrite IH; [|rewrite app_length; exact HV|now apply only_tail in HO].
    rewrite <- app_assoc. reflexivity.
  - destruct HV as [Hn HV]. cbn [dummy_pool gets submitted flat_map app map]. rewrite (nth_error_nth' h d Hn).
    cbn [run_calls]. rewrite app_nth1 by exact Hn. destruct (nth n h d s) as [v s'].
    rewrite IH by (auto; now apply only_tail in HO). reflexivity.
  - exfalso. apply (HO f). now left.
Qed.
Lemma lazy_calls {S A} (d : call S A) (ops : list (op S A)) s : valid 0 ops -> only_pool ops ->
  dummy_pool ops [] s = run_calls (map (fun n => nth n (submitted ops) d) (gets ops)) s.
Proof. intros HV HO. apply (lazy_general d ops [] s HV HO). Qed.

Lemma eager_general {S A} (ops : list (op S A)) : forall k h vs sl se, (k <= length h)%nat -> length vs = length h ->
  valid (length h) ops -> only_pool ops -> gets ops = seq k (length h - k + length (submitted ops)) ->
  run_calls (skipn k h) sl = (skipn k vs, se) ->
  dummy_pool ops h sl = pool ops vs se.
Proof.
  induction ops as [|[t|n|f] ops IH]; intros k h vs sl se Hk Hl HV HO HG HR; cbn [valid] in HV.
  - assert (length h = k) by (apply (f_equal (@length nat)) in HG; rewrite seq_length in HG; cbn in HG; lia).
    rewrite skipn_all2 in HR by lia. cbn in HR. injection HR as _ <-. reflexivity.
  - cbn [dummy_pool pool]. destruct (t se) as [v se'] eqn:Et. apply (IH k).
    + rewrite app_length. lia.
    + rewrite !app_length, Hl. reflexivity.
    + rewrite app_length. exact HV.
    + now apply only_tail in HO.
    + cbn [gets submitted flat_map app length] in HG. rewrite app_length. cbn [length]. unfold gets, submitted in *. rewrite HG. f_equal. lia.
    + rewrite !skipn_app. replace (k - length h)%nat with 0%nat by lia. replace (k - length vs)%nat with 0%nat by lia. cbn [skipn].
      rewrite run_calls_app, HR. cbn [run_calls]. rewrite Et. reflexivity.
  - destruct HV as [Hn HV]. cbn [gets submitted flat_map app] in HG.
    assert (n = k /\ gets ops = seq (k + 1) (length h - (k + 1) + length (submitted ops)) /\ (k < length h)%nat) as (-> & HG' & Hlt).
    { unfold gets, submitted in *. destruct (length h - k + _)%nat eqn:E; [discriminate|]. cbn [seq] in HG. injection HG as -> HG. split; [reflexivity|].
      split; [|exact Hn]. rewrite HG. replace (Datatypes.S k) with (k + 1)%nat by lia. f_equal. lia. }
    cbn [dummy_pool pool].
    destruct (nth_error h k) as [t|] eqn:Eh; [|apply nth_error_None in Eh; lia].
    destruct (nth_error vs k) as [v|] eqn:Ev; [|apply nth_error_None in Ev; lia].
    assert (SH : forall (X : Type) (l : list X) x, nth_error l k = Some x -> skipn k l = x :: skipn (k + 1) l).
    { clear. intros X l. revert k. induction l as [|y l IH]; intros [|k] x H; try discriminate; cbn in *; [congruence|]. now apply IH. }
    rewrite (SH _ _ _ Eh), (SH _ _ _ Ev) in HR. cbn [run_calls] in HR.
    destruct (t sl) as [v' sl']. destruct (run_calls (skipn (k + 1) h) sl') as [vs' se'] eqn:ER. injection HR as -> -> ->.
    rewrite (IH (k + 1)%nat h vs sl' se); [reflexivity|lia|exact Hl|exact HV|now apply only_tail in HO|exact HG'|exact ER].
  - exfalso. apply (HO f). now left.
Qed.
Lemma eager_in_order {S A} (ops : list (op S A)) s : valid 0 ops -> only_pool ops -> gets ops = seq 0 (length (submitted ops)) ->
  dummy_pool ops [] s = pool ops [] s.
Proof. intros HV HO HG. now apply (eager_general ops 0 [] [] s s). Qed.
Lemma pure_general {S A} (ops : list (op S A)) : forall (h : list (call S A)) (vs : list A) s, Forall2 (fun (t : call S A) v => forall s, t s = (v, s)) h vs ->
  (forall t, In t (submitted ops) -> pure t) ->
  dummy_pool ops h s = pool ops vs s.
Proof.
  induction ops as [|[t|n|f] ops IH]; intros h vs s HF HP.
  - reflexivity.
  - cbn [dummy_pool pool]. destruct (HP t (or_introl eq_refl)) as (v & Hv). rewrite Hv. apply IH.
    + apply Forall2_app; [exact HF|]. constructor; [exact Hv|constructor].
    + intros t' Ht'. apply HP. now right.
  - cbn [dummy_pool pool].
    assert (HN : match nth_error h n, nth_error vs n with Some t, Some v => forall s, t s = (v, s) | None, None => True | _, _ => False end).
    { clear -HF. revert n. induction HF as [|t v h vs E HF IH]; intros [|n]; cbn; auto. apply IH. }
    destruct (nth_error h n) as [t|], (nth_error vs n) as [v|]; try contradiction.
    + rewrite HN. rewrite (IH h vs s HF HP). reflexivity.
    + now apply IH.
  - cbn [dummy_pool pool]. now apply IH.
Qed.
Lemma pure_same {S A} (ops : list (op S A)) s : (forall t, In t (submitted ops) -> pure t) -> dummy_pool ops [] s = pool ops [] s.
Proof. intros H. apply pure_general; [constructor|exact H]. Qed.

(** ** grids *)
Lemma unstructured_ok p n : length p = 3%nat -> List.Forall (fun r => length r = n) p ->
  exists g, unstructured_init (inr p) = Ok g /\ unstructured_shape g = [n] /\ length (unstructured_to_points g) = n /\
  forall i, (i < n)%nat -> nth_error (unstructured_to_points g) i =
    Some [nth i (nth 0 p []) 0; nth i (nth 1 p []) 0; nth i (nth 2 p []) 0].
Proof.
  intros L F. exists p. unfold unstructured_init, atleast_2d. rewrite L. split; [reflexivity|].
  destruct p as [|x [|y [|z [|? ?]]]]; try discriminate. inversion F as [|? ? Lx F']; subst.
  unfold unstructured_shape, unstructured_to_points. cbn [hd]. split; [reflexivity|]. split; [now rewrite map_length, seq_length|].
  intros i Hi. rewrite nth_error_map. rewrite (nth_error_nth' _ 0%nat) by (now rewrite seq_length). rewrite seq_nth by exact Hi. reflexivity.
Qed.
Lemma unstructured_bad p : length (atleast_2d p) <> 3%nat -> unstructured_init p = Raise AssertionError.
Proof. intros H. unfold unstructured_init. destruct (Nat.eqb_spec (length (atleast_2d p)) 3); [contradiction|reflexivity]. Qed.

Lemma flat_map_nth_gen {B} (f : nat -> list B) m (Hf : forall i, length (f i) = m) n : forall st i k, (i < n)%nat -> (k < m)%nat ->
  nth_error (flat_map f (seq st n)) (i * m + k) = nth_error (f (st + i)%nat) k.
Proof.
  induction n as [|n IH]; intros st i k Hi Hk; [lia|]. cbn [seq flat_map]. destruct i as [|i].
  - rewrite nth_error_app1 by (rewrite Hf; lia). now rewrite Nat.add_0_r.
  - rewrite nth_error_app2 by (rewrite Hf; lia). rewrite Hf. replace (S i * m + k - m)%nat with (i * m + k)%nat by lia.
    rewrite IH by lia. f_equal. f_equal. lia.
Qed.
Lemma flat_map_len {B} (f : nat -> list B) m (Hf : forall i, length (f i) = m) n : forall st, length (flat_map f (seq st n)) = (n * m)%nat.
Proof. induction n as [|n IH]; intros st; [reflexivity|]. cbn [seq flat_map]. rewrite app_length, Hf, IH. lia. Qed.
Lemma sphere_ok p_roots lpmn ipow junk origins r n xs ws : p_roots n = Ok (xs, ws) -> signs ipow ->
  (forall i, (i < n)%nat -> -1 <= nth i xs 0 <= 1) -> (0 < n)%nat ->
  exists g, spherical_grid p_roots lpmn ipow junk origins r n = Ok g /\
    sg_shape g = [length origins; n; 2 * n]%nat /\ length (sphere_to_points g) = (length origins * (n * (2 * n)))%nat /\
    forall o i j, (o < length origins)%nat -> (i < n)%nat -> (j < 2 * n)%nat ->
    exists p, nth_error (sphere_to_points g) ((o * n + i) * (2 * n) + j) = Some p /\
      p = (sg_xyz g 0%nat o i j, sg_xyz g 1%nat o i j, sg_xyz g 2%nat o i j) /\
      dist2 p (nth o origins (0, 0, 0)) = r ^ 2 /\
      p = (let '(x, y, z) := nth o origins (0, 0, 0) in let c := nth i xs 0 in let phi := PI * INR j / INR n in
           (x + r * sqrt (1 - c ^ 2) * cos phi, y + r * sqrt (1 - c ^ 2) * sin phi, z + r * c)).
Proof.
  intros Hr Hi Hx Hn. destruct (init_spec p_roots lpmn ipow junk n xs ws Hr Hi) as (h & Eh & _).
  set (X := fun c o i j : nat => component c (nth o origins (0, 0, 0)) + r * component c (spherical_to_cartesian 1 (acos (nth i xs 0)) (INR j * (PI / INR n)))).
  exists (SphereGrid [length origins; n; 2 * n]%nat X). split; [unfold spherical_grid; rewrite Eh, Hr; reflexivity|]. cbn [sg_shape sg_xyz]. split; [reflexivity|].
  set (P := fun o i j : nat => (X 0%nat o i j, X 1%nat o i j, X 2%nat o i j)).
  set (G := fun o => flat_map (fun i => map (fun j => P o i j) (seq 0 (2 * n))) (seq 0 n)).
  change (sphere_to_points _) with (flat_map G (seq 0 (length origins))).
  assert (LG : forall o, length (G o) = (n * (2 * n))%nat).
  { intros o. unfold G. apply flat_map_len. intros i. now rewrite map_length, seq_length. }
  split; [apply flat_map_len; exact LG|]. intros o i j Ho Hii Hj. exists (P o i j). split; [|split; [reflexivity|]].
  - replace ((o * n + i) * (2 * n) + j)%nat with (o * (n * (2 * n)) + (i * (2 * n) + j))%nat by lia.
    rewrite (flat_map_nth_gen G (n * (2 * n)) LG) by nia. cbn [plus]. unfold G.
    rewrite (flat_map_nth_gen _ (2 * n)) by (auto; intros; now rewrite map_length, seq_length). cbn [plus].
    rewrite nth_error_map. rewrite (nth_error_nth' _ 0%nat) by (now rewrite seq_length). rewrite seq_nth by exact Hj. reflexivity.
  - assert (HC : cos (acos (nth i xs 0)) = nth i xs 0) by (apply cos_acos; now apply Hx).
    assert (HS : sin (acos (nth i xs 0)) = sqrt (1 - nth i xs 0 ^ 2)).
    { rewrite sin_acos by now apply Hx. f_equal. unfold Rsqr. ring. }
    assert (EP : P o i j = (let '(x, y, z) := nth o origins (0, 0, 0) in let c := nth i xs 0 in let phi := PI * INR j / INR n in
           (x + r * sqrt (1 - c ^ 2) * cos phi, y + r * sqrt (1 - c ^ 2) * sin phi, z + r * c))).
    { unfold P, X, spherical_to_cartesian, component, cis. cbn [fst snd Coquelicot.Complex.Re Coquelicot.Complex.Im].
      rewrite HS, HC. replace (INR j * (PI / INR n)) with (PI * INR j / INR n) by (field; apply not_0_INR; lia).
      destruct (nth o origins (0, 0, 0)) as [[x y] z]. cbn [fst snd]. cbv zeta. f_equal; [f_equal|]; ring. }
    split; [|exact EP]. rewrite EP. destruct (nth o origins (0, 0, 0)) as [[x y] z]. cbv zeta. unfold dist2. cbn [fst snd].
    set (phi := PI * INR j / INR n). set (c := nth i xs 0).
    assert (Q : sqrt (1 - c ^ 2) ^ 2 = 1 - c ^ 2).
    { rewrite <- Rsqr_pow2. apply Rsqr_sqrt. pose proof (Hx i Hii). fold c in H. nra. }
    pose proof (sin2_cos2 phi) as T. unfold Rsqr in T.
    replace ((x + r * sqrt (1 - c ^ 2) * cos phi - x) ^ 2 + (y + r * sqrt (1 - c ^ 2) * sin phi - y) ^ 2 + (z + r * c - z) ^ 2)
      with (r ^ 2 * (sqrt (1 - c ^ 2) ^ 2 * (sin phi * sin phi + cos phi * cos phi) + c ^ 2)) by ring.
    rewrite Q, T. ring.
Qed.
Lemma sphere_modern p_roots lpmn ipow junk origins r n xs ws : p_roots n = Ok (xs, ws) -> signs_modern ipow -> (2 <= n)%nat ->
  spherical_grid p_roots lpmn ipow junk origins r n = Raise ValueError.
Proof. intros Hr Hi Hn. unfold spherical_grid. rewrite (modern_fails p_roots lpmn ipow junk n xs ws Hr Hi Hn). reflexivity. Qed.
Lemma norm_axis_shape x m n : dims x = [m; n] -> m <> n -> exists b, norm x 0 = Ok b /\ ~ lengths_along x 0 b.
Proof.
  intros H Hmn. unfold norm. rewrite H. cbn [rev app]. eexists. split; [reflexivity|]. intros [D _]. cbn [dims] in D. rewrite H in D. cbn in D. congruence.
Qed.

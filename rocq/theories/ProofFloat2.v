(** Proof of C163: linear in the voltages up to rounding. *)
From Coq Require Import Permutation.
From Flocq Require Import Core Relative.
From Verif Require Import Base ModelField ModelFloat ModelFloatExpr ModelFloatField SpecFloat ProofFloat.
Open Scope R_scope.

(** ** Relative errors as factors *)
Definition w : R := 1 + u64.
Lemma u_pos : 0 < u64.
Proof. unfold u64. apply Rinv_0_lt_compat, pow_lt; lra. Qed.
Lemma w_ge : 1 < w. Proof. unfold w; pose proof u_pos; lra. Qed.
Lemma wp_ge n : 1 <= w ^ n. Proof. apply pow_R1_Rle. pose proof w_ge; lra. Qed.
Lemma wp_mono m n : (m <= n)%nat -> w ^ m <= w ^ n.
Proof. intros H. apply Rle_pow; [pose proof w_ge; lra|exact H]. Qed.
Lemma gam_pos n : 0 <= gam n. Proof. unfold gam; fold w; pose proof (wp_ge n); lra. Qed.
Lemma gam_mono m n : (m <= n)%nat -> gam m <= gam n.
Proof. intros H; unfold gam; fold w; pose proof (wp_mono m n H); lra. Qed.
Lemma gam_S n : w * gam n + u64 = gam (S n).
Proof. unfold gam; fold w; cbn [pow]; unfold w at 2; unfold w at 3; ring_simplify; unfold w; ring. Qed.

Definition near (k : nat) (x y : R) : Prop := exists t, x = y * t /\ / w ^ k <= t /\ t <= w ^ k.

Lemma near_refl x : near 0 x x.
Proof. exists 1. cbn. rewrite Rinv_1. split; [ring|lra]. Qed.
Lemma near_weak m n x y : (m <= n)%nat -> near m x y -> near n x y.
Proof.
  intros H [t [E [L U]]]. exists t; split; [exact E|].
  pose proof (wp_mono m n H). pose proof (wp_ge m). pose proof (wp_ge n). split; [|lra].
  eapply Rle_trans; [|exact L]. apply Rinv_le_contravar; lra.
Qed.
Lemma near_mul j k a b x y : near j a x -> near k b y -> near (j + k) (a * b) (x * y).
Proof.
  intros [t [-> [L U]]] [s [-> [L' U']]]. exists (t * s). split; [ring|].
  pose proof (wp_ge j). pose proof (wp_ge k). rewrite pow_add, Rinv_mult.
  assert (0 < / w ^ j) by (apply Rinv_0_lt_compat; lra).
  assert (0 < / w ^ k) by (apply Rinv_0_lt_compat; lra).
  split; apply Rmult_le_compat; lra.
Qed.
Lemma near_inv k a x : near k a x -> near k (/ a) (/ x).
Proof.
  intros [t [-> [L U]]]. pose proof (wp_ge k).
  assert (0 < / w ^ k) by (apply Rinv_0_lt_compat; lra).
  exists (/ t). split; [rewrite Rinv_mult; reflexivity|]. split.
  - apply Rinv_le_contravar; lra.
  - rewrite <- (Rinv_inv (w ^ k)). apply Rinv_le_contravar; lra.
Qed.
Lemma near_div j k a b x y : near j a x -> near k b y -> near (j + k) (a / b) (x / y).
Proof. intros H1 H2. apply near_mul; [exact H1|apply near_inv, H2]. Qed.
Lemma near_opp k a x : near k a x -> near k (- a) (- x).
Proof. intros [t [-> H]]. exists t. split; [ring|exact H]. Qed.
Lemma near_trans j k a b c : near j a b -> near k b c -> near (j + k) a c.
Proof.
  intros [t [-> [L U]]] [s [-> [L' U']]]. exists (s * t). split; [ring|].
  pose proof (wp_ge j). pose proof (wp_ge k). rewrite pow_add, Rinv_mult.
  assert (0 < / w ^ j) by (apply Rinv_0_lt_compat; lra).
  assert (0 < / w ^ k) by (apply Rinv_0_lt_compat; lra).
  rewrite (Rmult_comm s). split; apply Rmult_le_compat; lra.
Qed.
Lemma near_sym k a x : near k a x -> near k x a.
Proof.
  intros [t [-> [L U]]]. pose proof (wp_ge k).
  assert (0 < / w ^ k) by (apply Rinv_0_lt_compat; lra).
  exists (/ t). split; [field; lra|]. split.
  - apply Rinv_le_contravar; lra.
  - rewrite <- (Rinv_inv (w ^ k)). apply Rinv_le_contravar; lra.
Qed.
Lemma near_abs k a x : near k a x -> Rabs (a - x) <= gam k * Rabs x.
Proof.
  intros [t [-> [L U]]]. replace (x * t - x) with ((t - 1) * x) by ring. rewrite Rabs_mult.
  apply Rmult_le_compat_r; [apply Rabs_pos|]. unfold gam; fold w. pose proof (wp_ge k).
  apply Rabs_le. split; [|lra].
  assert (2 - w ^ k <= / w ^ k); [|lra].
  apply Rmult_le_reg_r with (w ^ k); [lra|]. rewrite Rinv_l by lra. nra.
Qed.

Lemma round_near x : near 1 (round radix2 (FLX_exp 53) ZnearestE x) x.
Proof.
  destruct (relative_error_N_FLX'_ex radix2 53 ltac:(reflexivity) (fun t => negb (Z.even t)) x) as [eps [H E]].
  exists (1 + eps). split; [exact E|].
  assert (U : u_ro radix2 53 = u64).
  { unfold u_ro, u64. rewrite (pow_IZR 2 53).
    change (bpow radix2 (- (53) + 1)) with (/ IZR 4503599627370496).
    change (2 ^ Z.of_nat 53)%Z with 9007199254740992%Z. rewrite <- Rinv_mult, <- mult_IZR. reflexivity. }
  rewrite U in H. pose proof u_pos. unfold w. cbn [pow]. rewrite Rmult_1_r.
  apply Rabs_le_inv in H. destruct H as [H1 H2].
  assert (u64 / (1 + u64) <= u64).
  { unfold Rdiv. apply Rmult_le_reg_r with (1 + u64); [lra|]. rewrite Rmult_assoc, Rinv_l by lra. nra. }
  split; [|lra].
  assert (/ (1 + u64) = 1 - u64 / (1 + u64)) by (field; lra). lra.
Qed.

Section arith.
Variable A : arith.
Hypothesis Hr : forall x, near 1 (rnd A x) x.

Lemma chain_near e k : chain e = Some k -> exists g, forall v, near k (feval A v e) (v * g).
Proof.
  revert k; induction e; cbn; intros k H; try discriminate.
  - injection H as <-. exists 1. intros v. rewrite Rmult_1_r. apply near_refl.
  - destruct (free e1) eqn:F1; [|destruct (free e2) eqn:F2; [|discriminate]].
    + destruct (chain e2) as [k2|]; [|discriminate]. injection H as <-.
      destruct (IHe2 k2 eq_refl) as [g G]. exists (feval A 0 e1 * g). intros v.
      apply (near_trans 1 k2 _ (feval A v e1 * feval A v e2)); [apply Hr|].
      rewrite (free_eval A v 0 e1 F1). replace (v * (feval A 0 e1 * g)) with (feval A 0 e1 * (v * g)) by ring.
      apply (near_mul 0 k2); [apply near_refl|apply G].
    + destruct (chain e1) as [k1|]; [|discriminate]. injection H as <-.
      destruct (IHe1 k1 eq_refl) as [g G]. exists (g * feval A 0 e2). intros v.
      apply (near_trans 1 k1 _ (feval A v e1 * feval A v e2)); [apply Hr|].
      rewrite (free_eval A v 0 e2 F2), <- Rmult_assoc, Rmult_comm, (Rmult_comm (v * g)).
      apply (near_mul 0 k1); [apply near_refl|apply G].
  - destruct (free e2) eqn:F2; [|discriminate]. destruct (chain e1) as [k1|]; [|discriminate]. injection H as <-.
    destruct (IHe1 k1 eq_refl) as [g G]. exists (g * / feval A 0 e2). intros v.
    apply (near_trans 1 k1 _ (feval A v e1 / feval A v e2)); [apply Hr|]. unfold Rdiv.
    rewrite (free_eval A v 0 e2 F2), <- Rmult_assoc, Rmult_comm, (Rmult_comm (v * g)).
    apply (near_mul 0 k1); [apply near_refl|apply G].
  - destruct (IHe k H) as [g G]. exists (- g). intros v. replace (v * - g) with (- (v * g)) by ring.
    apply near_opp, G.
Qed.
Lemma short_near e v : short e = true -> near 10 (feval A v e) (v * feval A 1 e).
Proof.
  unfold short. destruct (chain e) as [k|] eqn:E; [|discriminate]. intros H; apply Nat.leb_le in H.
  destruct (chain_near e k E) as [g G]. apply (near_weak (k + k)); [lia|].
  apply (near_trans k k _ (v * g)); [apply G|].
  pose proof (near_sym _ _ _ (G 1)) as H'. rewrite Rmult_1_l in H'.
  apply (near_mul 0 k); [apply near_refl|exact H'].
Qed.

(** ** A rounded sum *)
Definition fsum (l : list R) (a : R) : R := fold_left (fun a c => rnd A (a + c)) l a.
Lemma fsum_err K (l : list (R * R)) : (forall p, In p l -> Rabs (fst p - snd p) <= gam K * Rabs (snd p)) ->
  forall n a S T, Rabs S <= T -> Rabs (a - S) <= gam (n + K) * T ->
  Rabs (fsum (map fst l) a - (S + total (map snd l))) <=
  gam (n + length l + K) * (T + total (map Rabs (map snd l))).
Proof.
  induction l as [|[c y] l IH]; intros H n a S T HT Ha; cbn [map fsum fold_left total fold_right length].
  - rewrite !Rplus_0_r, Nat.add_0_r. exact Ha.
  - fold (fsum (map fst l) (rnd A (a + c))). fold (total (map snd l)). fold (total (map Rabs (map snd l))).
    cbn [fst snd]. rewrite <- !Rplus_assoc.
    replace (n + Datatypes.S (length l) + K)%nat with (Datatypes.S n + length l + K)%nat by lia.
    apply IH.
    + intros p Hp; apply H; right; exact Hp.
    + eapply Rle_trans; [apply Rabs_triang|]. lra.
    + pose proof (H (c, y) (or_introl eq_refl)) as Hc; cbn in Hc.
      destruct (Hr (a + c)) as [t [-> [L U]]].
      assert (Ht : Rabs (t - 1) <= u64).
      { pose proof (near_abs 1 (1 * t) 1) as Q. rewrite Rmult_1_l, Rabs_R1, Rmult_1_r in Q.
        replace (gam 1) with u64 in Q by (unfold gam; cbn; ring). apply Q. exists t; split; [ring|auto]. }
      pose proof u_pos as Up.
      assert (Htt : Rabs t <= w).
      { unfold w. apply Rabs_le_inv in Ht. apply Rabs_le. split; lra. }
      replace ((a + c) * t - (S + y)) with (t * ((a - S) + (c - y)) + (t - 1) * (S + y)) by ring.
      eapply Rle_trans; [apply Rabs_triang|]. rewrite !Rabs_mult.
      change (Datatypes.S n + K)%nat with (Datatypes.S (n + K)). rewrite <- gam_S.
      assert (B1 : Rabs (a - S + (c - y)) <= gam (n + K) * (T + Rabs y)).
      { eapply Rle_trans; [apply Rabs_triang|]. rewrite Rmult_plus_distr_l.
        apply Rplus_le_compat; [exact Ha|]. eapply Rle_trans; [exact Hc|].
        apply Rmult_le_compat_r; [apply Rabs_pos|]. apply gam_mono; lia. }
      assert (B2 : Rabs (S + y) <= T + Rabs y).
      { eapply Rle_trans; [apply Rabs_triang|]. lra. }
      rewrite Rmult_plus_distr_r. apply Rplus_le_compat.
      * rewrite Rmult_assoc. apply Rmult_le_compat; auto using Rabs_pos.
      * apply Rmult_le_compat; auto using Rabs_pos.
Qed.

(** ** The additions a system carries out *)
Fixpoint trace (s : list electrode) (xs : list p3) (d : nat) (t : vtyp) : list (R * stmt) :=
  match s with
  | [] => []
  | e :: s' =>
      (match volt t e with
       | None => []
       | Some v => if Req_EM_T v 0 then [] else
           match stmts (egeom e) xs d with Ok l => map (pair v) l | Raise _ => [] end
       end) ++ trace s' xs d t
  end.
Definition run (l : list (R * stmt)) (out : list row) : list row :=
  fold_left (fun out vs => fexec1 A (fst vs) out (snd vs)) l out.
Lemma exec_run v l out : fexec A v l out = run (map (pair v) l) out.
Proof.
  revert out; induction l as [|x l IH]; intros out; [reflexivity|].
  change (fexec A v l (fexec1 A v out x) = run (map (pair v) l) (fexec1 A v out x)). apply IH.
Qed.
Lemma run_app a b out : run (a ++ b) out = run b (run a out).
Proof. unfold run. apply fold_left_app. Qed.
Lemma loop_trace s xs d t pot out : fel_loop A s xs d t pot = Ok out -> out = run (trace s xs d t) pot.
Proof.
  revert pot; induction s as [|e s IH]; intros pot; cbn [fel_loop trace].
  - intros E; injection E as <-; reflexivity.
  - rewrite run_app. destruct (volt t e) as [v|]; [|apply IH].
    destruct (Req_EM_T v 0); [apply IH|].
    unfold fpotential. destruct (stmts (egeom e) xs d) as [l|]; cbn [bind]; [|discriminate].
    rewrite exec_run. apply IH.
Qed.

Definition hits (j i : nat) (s : stmt) : bool := ((sj s =? j) && (si s =? i))%nat.
Definition inside (out : list row) (j i : nat) : Prop :=
  (j < length out)%nat /\ (i < length (nth j out []))%nat.
Lemma upd_at_spec f i r : length (upd_at i f r) = length r /\
  forall k, (k < length r)%nat -> nth k (upd_at i f r) 0 = if (i =? k)%nat then f (nth k r 0) else nth k r 0.
Proof.
  revert i; induction r as [|a r IH]; intros i.
  - destruct i; split; try reflexivity; cbn; intros k Hk; lia.
  - destruct i as [|i].
    + split; [reflexivity|]. intros [|k] Hk; reflexivity.
    + destruct (IH i) as [H1 H2]. split; [cbn; rewrite H1; reflexivity|].
      intros [|k] Hk; [reflexivity|]. cbn. apply H2. cbn in Hk; lia.
Qed.
Lemma upd_row_spec f j (out : list row) : length (upd_row j f out) = length out /\
  forall k, (k < length out)%nat -> nth k (upd_row j f out) [] = if (j =? k)%nat then f (nth k out []) else nth k out [].
Proof.
  revert j; induction out as [|a r IH]; intros i.
  - destruct i; split; try reflexivity; cbn; intros k Hk; lia.
  - destruct i as [|i].
    + split; [reflexivity|]. intros [|k] Hk; reflexivity.
    + destruct (IH i) as [H1 H2]. split; [cbn; rewrite H1; reflexivity|].
      intros [|k] Hk; [reflexivity|]. cbn. apply H2. cbn in Hk; lia.
Qed.
Lemma exec1_cell v out s j i : inside out j i ->
  inside (fexec1 A v out s) j i /\
  cell (fexec1 A v out s) j i =
    if hits j i s then rnd A (cell out j i + feval A v (se s)) else cell out j i.
Proof.
  intros [H1 H2]. unfold fexec1, inside, cell, hits.
  destruct (upd_row_spec (upd_at (si s) (fun a => rnd A (a + feval A v (se s)))) (sj s) out) as [L N].
  rewrite L, (N j H1).
  destruct (upd_at_spec (fun a => rnd A (a + feval A v (se s))) (si s) (nth j out [])) as [L' N'].
  destruct (sj s =? j)%nat; cbn [andb]; [|auto]. rewrite L', (N' i H2). auto.
Qed.
Lemma run_cell l j i : forall out, inside out j i ->
  cell (run l out) j i = fsum (map (fun vs => feval A (fst vs) (se (snd vs))) (filter (fun vs => hits j i (snd vs)) l)) (cell out j i).
Proof.
  induction l as [|vs l IH]; intros out H; [reflexivity|].
  change (run (vs :: l) out) with (run l (fexec1 A (fst vs) out (snd vs))).
  destruct (exec1_cell (fst vs) out (snd vs) j i H) as [H1 H2].
  rewrite (IH _ H1), H2. cbn [filter]. destruct (hits j i (snd vs)); reflexivity.
Qed.
Lemma zeros_inside d n j i : (j < n)%nat -> (i < 2 * d + 1)%nat -> inside (zeros d n) j i /\ cell (zeros d n) j i = 0.
Proof.
  intros Hj Hi. unfold inside, cell, zeros. rewrite repeat_length.
  assert (E : nth j (repeat (repeat 0 (2 * d + 1)) n) [] = repeat 0 (2 * d + 1)).
  { rewrite nth_indep with (d' := repeat 0 (2 * d + 1)) by (rewrite repeat_length; exact Hj). apply nth_repeat. }
  rewrite E, repeat_length. split; [split; assumption|]. apply nth_repeat.
Qed.

(** the trace of a system against the sums of SpecFloat *)
Lemma total_app a b : total (a ++ b) = total a + total b.
Proof. unfold total; induction a as [|x a IH]; cbn [app fold_right]; [ring|]. rewrite IH; ring. Qed.
Lemma total_scale v l : total (map (Rmult v) l) = v * total l.
Proof. unfold total; induction l as [|x a IH]; cbn [map fold_right]; [ring|]. rewrite IH; ring. Qed.
Definition ideal (vs : R * stmt) : R := fst vs * feval A 1 (se (snd vs)).
Lemma trace_sums s xs d t j i :
  let l := filter (fun vs => hits j i (snd vs)) (trace s xs d t) in
  total (map ideal l) = superposed A xs d j i t s /\
  total (map Rabs (map ideal l)) = superposed_abs A xs d j i t s /\
  (length l <= additions A xs d j i s)%nat.
Proof.
  induction s as [|e s IH]; [cbn; auto|]. cbv zeta in IH |- *. destruct IH as [I1 [I2 I3]].
  cbn [trace]. rewrite filter_app, !map_app, !total_app, app_length, I1, I2. clear I1 I2.
  change (superposed A xs d j i t (e :: s)) with
    (volts t e * total (unit_adds A xs d j i (egeom e)) + superposed A xs d j i t s).
  change (superposed_abs A xs d j i t (e :: s)) with
    (Rabs (volts t e) * total (map Rabs (unit_adds A xs d j i (egeom e))) + superposed_abs A xs d j i t s).
  change (additions A xs d j i (e :: s)) with
    (length (unit_adds A xs d j i (egeom e)) + additions A xs d j i s)%nat.
  unfold volts.
  destruct (volt t e) as [v|]; [destruct (Req_EM_T v 0) as [->|V]|].
  - cbn [filter map total fold_right length]. rewrite Rabs_R0. repeat split; [ring..|lia].
  - unfold unit_adds. destruct (stmts (egeom e) xs d) as [l|].
    + fold (hits j i).
      assert (F : filter (fun vs : R * stmt => hits j i (snd vs)) (map (pair v) l) = map (pair v) (filter (hits j i) l)).
      { clear. induction l as [|a l IH]; [reflexivity|]. cbn. destruct (hits j i a); cbn; rewrite IH; reflexivity. }
      change (fun s0 : stmt => ((sj s0 =? j) && (si s0 =? i))%nat) with (hits j i).
      rewrite F, map_map. split; [|split].
      * f_equal. rewrite <- total_scale, map_map. reflexivity.
      * f_equal. rewrite <- total_scale, !map_map. f_equal. apply map_ext; intros a.
        unfold ideal; cbn [fst snd]. apply Rabs_mult.
      * rewrite !map_length. lia.
    + cbn [filter map total fold_right length]. repeat split; [ring..|lia].
  - cbn [filter map total fold_right length]. rewrite Rabs_R0. repeat split; [ring..|lia].
Qed.
Lemma trace_ok s xs d t vs : In vs (trace s xs d t) -> ok_stmt (snd vs).
Proof.
  induction s as [|e s IH]; cbn [trace]; [intros []|].
  rewrite in_app_iff. intros [H|H]; [|apply IH, H].
  destruct (volt t e) as [v|]; [|destruct H]. destruct (Req_EM_T v 0); [destruct H|].
  destruct (stmts (egeom e) xs d) as [l|] eqn:E; [|destruct H].
  apply in_map_iff in H as [x [<- Hx]]. pose proof (stmts_ok _ _ _ _ E) as F.
  rewrite Forall_forall in F. apply F, Hx.
Qed.
Lemma superposed_abs_pos s xs d t j i : 0 <= superposed_abs A xs d j i t s.
Proof.
  destruct (trace_sums s xs d t j i) as [_ [<- _]].
  generalize (filter (fun vs => hits j i (snd vs)) (trace s xs d t)) as l. intros l.
  induction l as [|x l IH]; cbn; [lra|]. pose proof (Rabs_pos (ideal x)). fold (total (map Rabs (map ideal l))). lra.
Qed.
Lemma linear s xs d t out j i : felectrical_potential A s xs d t = Ok out ->
  (j < length xs)%nat -> (i < 2 * d + 1)%nat ->
  Rabs (cell out j i - superposed A xs d j i t s) <=
  gam (additions A xs d j i s + 10) * superposed_abs A xs d j i t s.
Proof.
  intros E Hj Hi. apply loop_trace in E.
  destruct (zeros_inside d (length xs) j i Hj Hi) as [Z1 Z2].
  rewrite E, (run_cell _ j i _ Z1), Z2.
  destruct (trace_sums s xs d t j i) as [T1 [T2 T3]].
  pose proof (trace_ok s xs d t) as Ok'.
  pose proof (superposed_abs_pos s xs d t j i) as P.
  rewrite <- T1. rewrite <- T2 in P |- *.
  set (l := filter (fun vs => hits j i (snd vs)) (trace s xs d t)) in *.
  pose (pl := map (fun vs : R * stmt => (feval A (fst vs) (se (snd vs)), ideal vs)) l).
  assert (M1 : map (fun vs : R * stmt => feval A (fst vs) (se (snd vs))) l = map fst pl) by (unfold pl; rewrite map_map; reflexivity).
  assert (M2 : map ideal l = map snd pl) by (unfold pl; rewrite map_map; reflexivity).
  assert (M3 : length pl = length l) by (unfold pl; apply map_length).
  rewrite M1, M2 in *. 
  assert (HP : forall p, In p pl -> Rabs (fst p - snd p) <= gam 10 * Rabs (snd p)).
  { intros p Hp. unfold pl in Hp. apply in_map_iff in Hp as [vs [<- Hv]]. cbn [fst snd].
    apply near_abs. unfold ideal. apply short_near. apply (Ok' vs).
    unfold l in Hv. apply filter_In in Hv as [Hv _]. exact Hv. }
  pose proof (fsum_err 10 pl HP 0 0 0 0) as Q.
  rewrite Rabs_R0 in Q. specialize (Q (Rle_refl 0)).
  rewrite Rminus_0_r, Rabs_R0, Rmult_0_r in Q. specialize (Q (Rle_refl 0)).
  rewrite !Rplus_0_l in Q. eapply Rle_trans; [exact Q|].
  apply Rmult_le_compat_r; [exact P|]. apply gam_mono. cbn. lia.
Qed.
End arith.

Lemma linear64 pw at2 p s xs d t out j i :
  felectrical_potential (b64x pw at2 p) s xs d t = Ok out ->
  (j < length xs)%nat -> (i < 2 * d + 1)%nat ->
  let A := b64x pw at2 p in
  Rabs (cell out j i - superposed A xs d j i t s) <=
  gam (additions A xs d j i s + 10) * superposed_abs A xs d j i t s.
Proof. intros E Hj Hi. apply linear; auto. intros x. apply round_near. Qed.

Lemma adds_up_super A xs d j i t s1 s2 s : adds_up t s1 s2 s ->
  superposed A xs d j i t s = superposed A xs d j i t s1 + superposed A xs d j i t s2 /\
  additions A xs d j i s1 = additions A xs d j i s /\ additions A xs d j i s2 = additions A xs d j i s.
Proof.
  intros [G1 [G2 V]]. revert s1 s2 G1 G2 V. induction s as [|e s IH]; intros [|e1 s1] [|e2 s2] G1 G2 V; try discriminate.
  - cbn. split; [ring|auto].
  - cbn in G1, G2, V. injection G1 as E1 G1. injection G2 as E2 G2. injection V as Ve V.
    destruct (IH s1 s2 G1 G2 V) as [I1 [I2 I3]].
    unfold superposed, additions in *. cbn [map].
    change (list_sum (?a :: ?b)) with (a + list_sum b)%nat. change (total (?a :: ?b)) with (a + total b).
    rewrite I1, I2, I3, E1, E2, Ve. split; [ring|auto].
Qed.
Lemma superposition pw at2 p s1 s2 s xs d t o1 o2 o j i :
  let A := b64x pw at2 p in
  adds_up t s1 s2 s ->
  felectrical_potential A s1 xs d t = Ok o1 -> felectrical_potential A s2 xs d t = Ok o2 ->
  felectrical_potential A s xs d t = Ok o ->
  (j < length xs)%nat -> (i < 2 * d + 1)%nat ->
  Rabs (cell o j i - (cell o1 j i + cell o2 j i)) <=
  gam (additions A xs d j i s + 10) *
  (superposed_abs A xs d j i t s + superposed_abs A xs d j i t s1 + superposed_abs A xs d j i t s2).
Proof.
  intros A H E1 E2 E Hj Hi. destruct (adds_up_super A xs d j i t s1 s2 s H) as [S [N1 N2]].
  pose proof (linear64 pw at2 p s xs d t o j i E Hj Hi) as Q.
  pose proof (linear64 pw at2 p s1 xs d t o1 j i E1 Hj Hi) as Q1.
  pose proof (linear64 pw at2 p s2 xs d t o2 j i E2 Hj Hi) as Q2.
  cbv zeta in *. fold A in Q, Q1, Q2. rewrite N1 in Q1. rewrite N2 in Q2.
  replace (cell o j i - (cell o1 j i + cell o2 j i)) with
    ((cell o j i - superposed A xs d j i t s) + (- (cell o1 j i - superposed A xs d j i t s1) + - (cell o2 j i - superposed A xs d j i t s2)))
    by (rewrite S; ring).
  eapply Rle_trans; [apply Rabs_triang|].
  eapply Rle_trans; [apply Rplus_le_compat_l, Rabs_triang|]. rewrite !Rabs_Ropp. lra.
Qed.
Lemma total_perm l l' : Permutation l l' -> total l = total l'.
Proof. intros H; unfold total; induction H; cbn [fold_right]; lra. Qed.
Lemma sum_perm l l' : Permutation l l' -> list_sum l = list_sum l'.
Proof. intros H; induction H; cbn; unfold list_sum in *; cbn; lia. Qed.
Lemma any_order pw at2 p s s' xs d t o o' j i :
  let A := b64x pw at2 p in
  Permutation s s' ->
  felectrical_potential A s xs d t = Ok o -> felectrical_potential A s' xs d t = Ok o' ->
  (j < length xs)%nat -> (i < 2 * d + 1)%nat ->
  Rabs (cell o j i - cell o' j i) <=
  2 * gam (additions A xs d j i s + 10) * superposed_abs A xs d j i t s.
Proof.
  intros A H E E' Hj Hi.
  pose proof (linear64 pw at2 p s xs d t o j i E Hj Hi) as Q.
  pose proof (linear64 pw at2 p s' xs d t o' j i E' Hj Hi) as Q'.
  cbv zeta in *. fold A in Q, Q'.
  assert (S1 : superposed A xs d j i t s' = superposed A xs d j i t s)
    by (apply total_perm, Permutation_map, Permutation_sym, H).
  assert (S2 : superposed_abs A xs d j i t s' = superposed_abs A xs d j i t s)
    by (apply total_perm, Permutation_map, Permutation_sym, H).
  assert (S3 : additions A xs d j i s' = additions A xs d j i s)
    by (apply sum_perm, Permutation_map, Permutation_sym, H).
  rewrite S1, S2, S3 in Q'.
  replace (cell o j i - cell o' j i) with
    ((cell o j i - superposed A xs d j i t s) + - (cell o' j i - superposed A xs d j i t s)) by ring.
  eapply Rle_trans; [apply Rabs_triang|]. rewrite Rabs_Ropp. lra.
Qed.

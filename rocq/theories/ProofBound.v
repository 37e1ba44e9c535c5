(** Lemmas for C30: boundary values. *)
From Coquelicot Require Import Coquelicot.
From Verif Require Import Base ModelExpr ModelUtils ModelField ModelGeom SpecTensor SpecField SpecPoly SpecBound
  ProofField ProofSys ProofEdgeP ProofEdge ProofPoly ProofPoly2 ProofPoly3.
Open Scope R_scope.
Notation length := List.length.

Section At.
Variables (q a b : p2).
Let ax := fst a - fst q. Let ay := snd a - snd q. Let bx := fst b - fst q. Let by_ := snd b - snd q.
Let d := ax * bx + ay * by_. Let c := ax * by_ - ay * bx.
Let P := dist2 q a * dist2 q b.
Lemma dist2_sq v : dist2 q v * dist2 q v = (fst v - fst q) ^ 2 + (snd v - snd q) ^ 2.
Proof. unfold dist2. apply sqrt_sqrt. pose proof (pow2_ge_0 (fst v - fst q)). pose proof (pow2_ge_0 (snd v - snd q)). lra. Qed.
Lemma dist2_pos v : 0 <= dist2 q v.
Proof. apply sqrt_pos. Qed.
Lemma P_sq : P * P = c ^ 2 + d ^ 2.
Proof.
  unfold P, c, d. transitivity ((dist2 q a * dist2 q a) * (dist2 q b * dist2 q b)); [ring|].
  rewrite !dist2_sq. unfold ax, ay, bx, by_. ring.
Qed.
Lemma P_pos : 0 <= P.
Proof. apply Rmult_le_pos; apply dist2_pos. Qed.
Lemma off_pos : ~ on_segment q a b -> 0 < P + d.
Proof.
  intros H. destruct (Rlt_le_dec 0 (P + d)) as [?|L]; [assumption|]. exfalso. apply H.
  pose proof (dist2_pos a) as A0. pose proof (dist2_pos b) as B0. pose proof (dist2_sq a) as A2. pose proof (dist2_sq b) as B2.
  set (A := dist2 q a) in *. set (B := dist2 q b) in *. fold ax ay in A2. fold bx by_ in B2.
  assert (S : (B * ax + A * bx) ^ 2 + (B * ay + A * by_) ^ 2 = 2 * P * (P + d)).
  { unfold P. fold A B. transitivity (B * B * (ax ^ 2 + ay ^ 2) + A * A * (bx ^ 2 + by_ ^ 2) + 2 * (A * B) * d); [unfold d; ring|].
    rewrite <- A2, <- B2. unfold d. ring. }
  assert (S0 : (B * ax + A * bx) ^ 2 + (B * ay + A * by_) ^ 2 <= 0).
  { rewrite S. pose proof P_pos. assert (0 <= 2 * P * - (P + d)) by (apply Rmult_le_pos; lra). lra. }
  assert (X : B * ax + A * bx = 0).
  { destruct (Req_dec (B * ax + A * bx) 0) as [?|N]; [assumption|]. pose proof (pow2_gt_0 _ N). pose proof (pow2_ge_0 (B * ay + A * by_)). lra. }
  assert (Y : B * ay + A * by_ = 0).
  { destruct (Req_dec (B * ay + A * by_) 0) as [?|N]; [assumption|]. pose proof (pow2_gt_0 _ N). pose proof (pow2_ge_0 (B * ax + A * bx)). lra. }
  destruct (Req_dec (A + B) 0) as [Z|N].
  - assert (A = 0) by lra. exists 0. split; [lra|]. rewrite H0 in A2.
    assert (ax = 0) by (pose proof (pow2_ge_0 ay); destruct (Req_dec ax 0) as [?|N]; [assumption|pose proof (pow2_gt_0 _ N); lra]).
    assert (ay = 0) by (pose proof (pow2_ge_0 ax); destruct (Req_dec ay 0) as [?|N]; [assumption|pose proof (pow2_gt_0 _ N); lra]).
    unfold ax, ay in *. lra.
  - assert (0 < A + B) by lra. exists (A / (A + B)). split.
    + split; [apply Rmult_le_pos; [lra|left; now apply Rinv_0_lt_compat]|].
      apply (Rmult_le_reg_r (A + B)); [assumption|]. unfold Rdiv. rewrite Rmult_assoc, Rinv_l by lra. lra.
    + unfold ax, ay, bx, by_ in *. split.
      * apply (Rmult_eq_reg_r (A + B)); [|lra].
        transitivity (fst a * (A + B) + A * (fst b - fst a)); [lra|]. field. lra.
      * apply (Rmult_eq_reg_r (A + B)); [|lra].
        transitivity (snd a * (A + B) + A * (snd b - snd a)); [lra|]. field. lra.
Qed.
Definition angle : R := 2 * atan (c / (P + d)).
Lemma half_turn t : cos (2 * atan t) * (1 + t ^ 2) = 1 - t ^ 2 /\ sin (2 * atan t) * (1 + t ^ 2) = 2 * t.
Proof.
  set (th := atan t).
  assert (HB : - (PI / 2) < th < PI / 2) by (unfold th; pose proof (Ratan.atan_bound t); lra).
  assert (C : cos th <> 0) by (apply Rgt_not_eq, cos_gt_0; lra).
  assert (T : sin th = t * cos th).
  { transitivity (tan th * cos th); [unfold tan; field; exact C|]. unfold th. now rewrite tan_atan. }
  pose proof (sin2_cos2 th) as E. unfold Rsqr in E. rewrite T in E.
  rewrite cos_2a, sin_2a, T. split.
  - transitivity ((1 - t ^ 2) * (t * cos th * (t * cos th) + cos th * cos th)); [ring|]. rewrite E. ring.
  - transitivity (2 * t * (t * cos th * (t * cos th) + cos th * cos th)); [ring|]. rewrite E. ring.
Qed.
Lemma angle_turns : ~ on_segment q a b -> turns q a b angle.
Proof.
  intros H. pose proof (off_pos H) as O. pose proof P_sq as S. pose proof P_pos as PP.
  assert (P0 : 0 < P).
  { destruct PP as [?|E]; [assumption|]. exfalso. rewrite <- E in S.
    assert (d = 0) by (pose proof (pow2_ge_0 c); destruct (Req_dec d 0) as [?|N]; [assumption|pose proof (pow2_gt_0 _ N); lra]). lra. }
  destruct (half_turn (c / (P + d))) as [C S'].
  assert (T : 1 + (c / (P + d)) ^ 2 = 2 * P / (P + d)).
  { transitivity (((P + d) ^ 2 + c ^ 2) / (P + d) ^ 2); [field; lra|].
    transitivity ((2 * P * (P + d)) / (P + d) ^ 2); [f_equal; rewrite <- (Rplus_comm (d ^ 2)) in S; nra|]. field. lra. }
  rewrite T in C, S'. unfold turns. fold ax ay bx by_. fold c d. change (dist2 q a * dist2 q b) with P. unfold angle. split.
  - pose proof (Ratan.atan_bound (c / (P + d))). lra.
  - split.
    + apply (Rmult_eq_reg_r (2 / (P + d))); [|apply Rgt_not_eq, Rdiv_lt_0_compat; lra].
      transitivity (cos (2 * atan (c / (P + d))) * (2 * P / (P + d))); [field; lra|]. rewrite C.
      apply (Rmult_eq_reg_r ((P + d) ^ 2)); [|apply Rgt_not_eq, pow_lt; lra].
      transitivity ((P + d) ^ 2 - c ^ 2); [field; lra|]. transitivity (2 * d * (P + d)); [nra|field; lra].
    + apply (Rmult_eq_reg_r (2 / (P + d))); [|apply Rgt_not_eq, Rdiv_lt_0_compat; lra].
      transitivity (sin (2 * atan (c / (P + d))) * (2 * P / (P + d))); [field; lra|]. rewrite S'. field. lra.
Qed.
Lemma turns_sign al : turns q a b al -> ~ on_segment q a b -> (0 < c -> 0 < al) /\ (c < 0 -> al < 0) /\ (c = 0 -> al = 0).
Proof.
  intros [B [C S]] H. fold ax ay bx by_ in C, S. fold c in S. fold d in C. change (dist2 q a * dist2 q b) with P in C, S.
  pose proof (off_pos H) as O. pose proof P_pos as PP.
  assert (M : 0 <= al -> 0 <= sin al) by (intros; apply sin_ge_0; lra).
  assert (N : al <= 0 -> sin al <= 0) by (intros; rewrite <- (Ropp_involutive al), sin_neg; pose proof (sin_ge_0 (- al) ltac:(lra) ltac:(lra)); lra).
  repeat split; intros Hc.
  - apply Rnot_le_lt. intros L. specialize (N L). assert (0 <= P * - sin al) by (apply Rmult_le_pos; lra). lra.
  - apply Rnot_le_lt. intros L. specialize (M L). assert (0 <= P * sin al) by (apply Rmult_le_pos; lra). lra.
  - pose proof P_sq as Q. rewrite Hc in S. assert (P0 : P <> 0).
    { intros E. rewrite E in Q, O, C. assert (d = 0) by lra. lra. }
    apply Rmult_integral in S. destruct S as [S|S]; [contradiction|].
    destruct (Rtotal_order al 0) as [L|[L|L]]; [|assumption|].
    + pose proof (sin_lt_0_var al ltac:(lra) L). lra.
    + pose proof (sin_gt_0 al L ltac:(lra)). lra.
Qed.
Lemma P_nz : ~ on_segment q a b -> P <> 0.
Proof.
  intros H E. pose proof (off_pos H) as O. pose proof P_sq as Q. rewrite E in Q, O.
  assert (d = 0) by (pose proof (pow2_ge_0 c); destruct (Req_dec d 0) as [?|N]; [assumption|pose proof (pow2_gt_0 _ N); lra]). lra.
Qed.
End At.

(** ** Whole turns *)
Lemma whole_turn S : cos S = 1 -> exists k : Z, S = IZR k * (2 * PI).
Proof.
  intros H. assert (E : sin (S / 2) = 0).
  { replace S with (2 * (S / 2)) in H by field. rewrite cos_2a_sin in H.
    destruct (Req_dec (sin (S / 2)) 0) as [?|N]; [assumption|]. pose proof (pow2_gt_0 _ N). nra. }
  destruct (sin_eq_0_0 _ E) as [k Hk]. exists k. lra.
Qed.
Lemma turn_small S k : S = IZR k * (2 * PI) -> - (2 * PI) < S < 2 * PI -> k = 0%Z.
Proof.
  intros -> [H1 H2]. pose proof PI_RGT_0.
  assert (-1 < IZR k) by (apply (Rmult_lt_reg_r (2 * PI)); lra).
  assert (IZR k < 1) by (apply (Rmult_lt_reg_r (2 * PI)); lra).
  apply (lt_IZR (-1)) in H0. apply (lt_IZR _ 1) in H3. lia.
Qed.
Lemma turns_unique q a b al al' : ~ on_segment q a b -> turns q a b al -> turns q a b al' -> al = al'.
Proof.
  intros H [B [C S]] [B' [C' S']]. pose proof (P_nz q a b H) as N.
  assert (EC : cos al = cos al') by (apply (Rmult_eq_reg_l _ _ _ (eq_trans C (eq_sym C')) N)).
  assert (ES : sin al = sin al') by (apply (Rmult_eq_reg_l _ _ _ (eq_trans S (eq_sym S')) N)).
  destruct (whole_turn (al - al')) as [k Hk].
  { rewrite cos_minus, EC, ES. pose proof (sin2_cos2 al') as E. unfold Rsqr in E. lra. }
  pose proof (turn_small _ _ Hk ltac:(lra)). subst k. lra.
Qed.

(** ** The angles around a closed path *)
Section Around.
Variable q : p2.
Definition ux (v : p2) := (fst v - fst q) / dist2 q v.
Definition uy (v : p2) := (snd v - snd q) / dist2 q v.
Lemma rotated a b al : ~ on_segment q a b -> turns q a b al ->
  ux b = cos al * ux a - sin al * uy a /\ uy b = sin al * ux a + cos al * uy a /\ ux b ^ 2 + uy b ^ 2 = 1.
Proof.
  intros H [_ [C S]]. pose proof (P_nz q a b H) as N.
  assert (Na : dist2 q a <> 0) by (intros E; apply N; rewrite E; ring).
  assert (Nb : dist2 q b <> 0) by (intros E; apply N; rewrite E; ring).
  pose proof (dist2_sq q a) as A2. pose proof (dist2_sq q b) as B2. unfold ux, uy.
  set (A := dist2 q a) in *. set (B := dist2 q b) in *.
  set (ax := fst a - fst q) in *. set (ay := snd a - snd q) in *. set (bx := fst b - fst q) in *. set (by_ := snd b - snd q) in *.
  assert (NA2 : A * A <> 0) by (now apply Rmult_integral_contrapositive_currified).
  assert (EC : cos al = (ax * bx + ay * by_) / (A * B)) by (rewrite <- C; field; auto).
  assert (ES : sin al = (ax * by_ - ay * bx) / (A * B)) by (rewrite <- S; field; auto).
  rewrite EC, ES. repeat split.
  - transitivity (bx * (ax ^ 2 + ay ^ 2) / (A * A * B)); [rewrite <- A2; field; auto|]. field; auto.
  - transitivity (by_ * (ax ^ 2 + ay ^ 2) / (A * A * B)); [rewrite <- A2; field; auto|]. field; auto.
  - transitivity ((bx ^ 2 + by_ ^ 2) / (B * B)); [field; auto|]. rewrite <- B2. field; auto.
Qed.
Fixpoint away (a : p2) (l : list p2) : Prop :=
  match l with [] => True | b :: r => ~ on_segment q a b /\ away b r end.
Lemma chain_rot l : forall a e, away a (l ++ [e]) ->
  let S := chain (angle q) a (l ++ [e]) in
  ux e = cos S * ux a - sin S * uy a /\ uy e = sin S * ux a + cos S * uy a /\ ux e ^ 2 + uy e ^ 2 = 1.
Proof.
  induction l as [|b l IH]; intros a e; cbn [app away chain].
  - intros [H _]. rewrite Rplus_0_r. apply rotated; [exact H|]. now apply angle_turns.
  - intros [H W]. destruct (IH b e W) as (X & Y & U). destruct (rotated a b _ H (angle_turns q a b H)) as (Xb & Yb & _).
    cbn zeta. rewrite cos_plus, sin_plus. rewrite X, Y, Xb, Yb in *. repeat split; try ring. exact U.
Qed.
Lemma last_indep (m : list p2) x y : m <> [] -> last m x = last m y.
Proof. induction m as [|c m IH]; intros N; [contradiction|]. destruct m as [|e m]; [reflexivity|]. apply IH. discriminate. Qed.
Lemma off_away v l : off_path q (v :: l) -> away v (l ++ [v]).
Proof.
  unfold off_path. intros H.
  assert (G : forall l a, (forall e, In e (combine (a :: removelast l) l) -> ~ on_segment q (fst e) (snd e)) -> away a l).
  { clear. induction l as [|b l IH]; intros a H; [exact I|]. cbn [away]. split; [apply (H (a, b)); left; reflexivity|].
    apply IH. intros e He. apply H. right. destruct l as [|c l]; [contradiction|exact He]. }
  unfold edges_of in H. apply G in H. cbn [away] in H. destruct H as [H1 H2].
  assert (A : forall m a w, away a m -> m <> [] -> ~ on_segment q (last m a) w -> away a (m ++ [w])).
  { clear. induction m as [|b m IH]; intros a w W N O; [contradiction|]. cbn [away app] in *. destruct W as [W1 W2]. split; [exact W1|].
    destruct m as [|c m]; [cbn in *; auto|]. apply IH; [exact W2|discriminate|]. rewrite (last_indep (c :: m) b a) by discriminate. exact O. }
  destruct l as [|w l]; [cbn in *; auto|]. apply A; [exact H2|discriminate|].
  replace (last (w :: l) v) with (last (v :: w :: l) (0, 0)); [exact H1|].
  apply (last_indep (w :: l) (0, 0) v). discriminate.
Qed.
Lemma angles_turn path : path <> [] -> off_path q path ->
  exists k : Z, path_sum (angle q) path = IZR k * (2 * PI).
Proof.
  intros Hp H. destruct path as [|v l]; [contradiction|]. apply off_away in H.
  unfold path_sum. rewrite edges_chain. apply whole_turn.
  destruct (chain_rot l v v H) as (X & Y & U). cbn zeta in X, Y. set (S := chain (angle q) v (l ++ [v])) in *.
  transitivity (cos S * (ux v ^ 2 + uy v ^ 2)); [rewrite U; ring|].
  transitivity ((cos S * ux v - sin S * uy v) * ux v + (sin S * ux v + cos S * uy v) * uy v); [ring|].
  rewrite <- X, <- Y. rewrite <- U. ring.
Qed.
Lemma all_turns l : (forall e, In e l -> ~ on_segment q (fst e) (snd e)) ->
  List.Forall2 (fun e al => turns q (fst e) (snd e) al) l (map (fun e => angle q (fst e) (snd e)) l).
Proof.
  induction l as [|e l IH]; intros H; cbn [map]; constructor.
  - apply angle_turns. apply H. now left.
  - apply IH. intros e' He. apply H. now right.
Qed.
Lemma same_turns l als : (forall e, In e l -> ~ on_segment q (fst e) (snd e)) ->
  List.Forall2 (fun e al => turns q (fst e) (snd e) al) l als -> als = map (fun e => angle q (fst e) (snd e)) l.
Proof.
  intros H F. induction F as [|e al l als T F IH]; [reflexivity|]. cbn [map]. f_equal.
  - assert (O : ~ on_segment q (fst e) (snd e)) by (apply H; now left). apply (turns_unique q (fst e) (snd e)); auto. now apply angle_turns.
  - apply IH. intros e' He. apply H. now right.
Qed.
Lemma winds_exists path : path <> [] -> off_path q path -> exists k, winds q path k.
Proof.
  intros N H. destruct (angles_turn path N H) as [k Hk]. exists k. exists (map (fun e => angle q (fst e) (snd e)) (edges_of path)).
  split; [now apply all_turns|exact Hk].
Qed.
Lemma winds_sum path k : off_path q path -> winds q path k -> path_sum (angle q) path = IZR k * (2 * PI).
Proof. intros H (als & F & S). rewrite (same_turns _ _ H F) in S. exact S. Qed.
End Around.

(** ** The limit *)
Lemma lim_const (f : R -> R) (l c : R) : (forall z, f z = c) -> l = c -> limit_from_above f l.
Proof. intros H ->. apply (filterlim_ext (fun _ => c)); [intros z; now rewrite H|]. apply filterlim_const. Qed.
Lemma lim_plus f g l m : limit_from_above f l -> limit_from_above g m -> limit_from_above (fun z => f z + g z) (l + m).
Proof.
  intros Hf Hg. unfold limit_from_above. eapply filterlim_comp_2; [exact Hf|exact Hg|]. apply (filterlim_plus (V := R_NormedModule) l m).
Qed.
Lemma lim_sum {A} (l : list A) (f : A -> R -> R) (m : A -> R) : (forall a, In a l -> limit_from_above (f a) (m a)) ->
  limit_from_above (fun z => sum_over l (fun a => f a z)) (sum_over l m).
Proof.
  induction l as [|a l IH]; intros H.
  - now apply (lim_const _ _ 0).
  - apply (lim_plus (f a) (fun z => sum_over l (fun a => f a z))); [apply H; now left|]. apply IH. intros b Hb. apply H. now right.
Qed.
Lemma lim_cont f l : continuous f 0 -> f 0 = l -> limit_from_above f l.
Proof. intros H <-. unfold limit_from_above. apply (filterlim_filter_le_1 (F := locally 0) f); [|exact H]. intros P HP. apply (filter_le_within (F := locally 0)). exact HP. Qed.
Lemma e0_limit q a b : ~ on_segment q a b ->
  limit_from_above (fun z => edge_term 0 a b 0 (P3 (fst q) (snd q) z)) (angle q a b / (2 * PI)).
Proof.
  intros H. pose proof (off_pos q a b H) as O.
  set (c := (fst a - fst q) * (snd b - snd q) - (snd a - snd q) * (fst b - fst q)).
  assert (D0 : den0 a b 0 (P3 (fst q) (snd q) 0) = dist2 q a * dist2 q b + ((fst a - fst q) * (fst b - fst q) + (snd a - snd q) * (snd b - snd q))).
  { assert (E : forall v, dist (P3 (fst q) (snd q) 0) v = dist2 q v) by (intros v; unfold dist, dist2; cbn [px py pz]; f_equal; ring).
    unfold den0. rewrite !E. cbn [px py]. ring. }
  apply (filterlim_ext_loc (fun z => atan (c / den0 a b z (P3 (fst q) (snd q) z)) * (1 / PI))).
  { exists (mkposreal 1 Rlt_0_1). intros z _ Hz. rewrite e0_eq. cbn [pz]. rewrite Rabs_right by lra. f_equal. f_equal. cbn [px py].
    assert (den0 a b z (P3 (fst q) (snd q) z) <> 0).
    { pose proof (den0_pos a b (P3 (fst q) (snd q) z)) as N. cbn [pz] in N. rewrite Rabs_right in N by lra. specialize (N ltac:(lra)). lra. }
    unfold c. field. split; lra. }
  apply lim_cont.
  - assert (DC : forall v, continuous (fun z => dist (P3 (fst q) (snd q) z) v) 0).
    { intros v. unfold dist. cbn [px py pz]. apply (continuous_comp (fun z => (fst q - fst v) ^ 2 + (snd q - snd v) ^ 2 + z ^ 2) sqrt).
      - apply (ex_derive_continuous (K := R_AbsRing) (V := R_NormedModule) (fun z => (fst q - fst v) ^ 2 + (snd q - snd v) ^ 2 + z ^ 2)). auto_derive. exact I.
      - apply continuity_pt_filterlim, continuity_pt_sqrt. pose proof (pow2_ge_0 (fst q - fst v)). pose proof (pow2_ge_0 (snd q - snd v)). lra. }
    apply (continuous_mult (K := R_AbsRing) (fun z => atan (c / den0 a b z (P3 (fst q) (snd q) z)))); [|apply continuous_const].
    apply (continuous_comp (fun z => c / den0 a b z (P3 (fst q) (snd q) z)) atan).
    + apply (continuous_mult (K := R_AbsRing) (fun _ => c) (fun z => / den0 a b z (P3 (fst q) (snd q) z))); [apply continuous_const|].
      apply (continuous_comp (fun z => den0 a b z (P3 (fst q) (snd q) z)) Rinv).
      * unfold den0. cbn [px py].
        apply (continuous_plus (V := R_NormedModule) (fun z => dist (P3 (fst q) (snd q) z) a * dist (P3 (fst q) (snd q) z) b + (fst q - fst a) * (fst q - fst b) + (snd q - snd a) * (snd q - snd b))
           (fun z => z * (z + dist (P3 (fst q) (snd q) z) a + dist (P3 (fst q) (snd q) z) b))).
        -- apply (continuous_plus (V := R_NormedModule) (fun z => dist (P3 (fst q) (snd q) z) a * dist (P3 (fst q) (snd q) z) b + (fst q - fst a) * (fst q - fst b))); [|apply continuous_const].
           apply (continuous_plus (V := R_NormedModule) (fun z => dist (P3 (fst q) (snd q) z) a * dist (P3 (fst q) (snd q) z) b)); [|apply continuous_const].
           apply (continuous_mult (K := R_AbsRing) (fun z => dist (P3 (fst q) (snd q) z) a)); apply DC.
        -- apply (continuous_mult (K := R_AbsRing) (fun z => z)); [apply continuous_id|].
           apply (continuous_plus (V := R_NormedModule) (fun z => z + dist (P3 (fst q) (snd q) z) a)); [|apply DC].
           apply (continuous_plus (V := R_NormedModule) (fun z => z)); [apply continuous_id|apply DC].
      * apply continuity_pt_filterlim. apply continuity_pt_inv; [apply derivable_continuous_pt, derivable_pt_id|]. rewrite D0. unfold id. lra.
    + apply continuity_pt_filterlim, derivable_continuous_pt, derivable_pt_atan.
  - rewrite D0. unfold angle. fold c. match goal with |- ?u = ?v => change (@eq R u v) end. field. apply PI_neq0.
Qed.
Lemma e0_cont x y a b z0 : z0 <> 0 ->
  continuous (fun z => edge_term 0 a b 0 (P3 x y (z + z0))) 0.
Proof.
  intros Hz. pose proof (e0_vertex a b 2 (P3 x y z0) ltac:(lia) Hz) as P. unfold partial in P. cbn [move px py pz] in P.
  apply (continuous_ext (fun t => edge_term 0 a b 0 (P3 x y (z0 + t)))); [intros t; now rewrite Rplus_comm|].
  apply (ex_derive_continuous (K := R_AbsRing) (V := R_NormedModule) (fun t => edge_term 0 a b 0 (P3 x y (z0 + t)))). eexists. exact P.
Qed.
Lemma e0_odd x y a b z : edge_term 0 a b 0 (P3 x y (- z)) = - edge_term 0 a b 0 (P3 x y z).
Proof.
  rewrite !e0_eq. cbn [pz px py]. rewrite Rabs_Ropp. unfold den0, dist. cbn [px py pz].
  replace ((- z) ^ 2) with (z ^ 2) by ring. rewrite (Ropp_mult_distr_l (atan _)), <- atan_opp. f_equal. f_equal. unfold Rdiv. ring.
Qed.
Lemma path_limit q path (n : nat) h k : path <> [] -> off_path q path -> winds q path k -> h <> 0 \/ n = 0%nat ->
  limit_from_above (fun z => path_value 0 0 (Z.of_nat n) h (P3 (fst q) (snd q) z) path) (IZR k).
Proof.
  intros N H W Hh. pose proof (winds_sum q path k H W) as S. unfold path_value. induction n as [|n IH].
  - change (images (Z.of_nat 0)) with [0%Z].
    apply (filterlim_ext (fun z => sum_over (edges_of path) (fun e => edge_term 0 (fst e) (snd e) 0 (P3 (fst q) (snd q) z)))).
    { intros z. unfold sum_over at 2. cbn [map sumR]. rewrite image_0. rewrite Rplus_0_r. reflexivity. }
    replace (IZR k) with (sum_over (edges_of path) (fun e => angle q (fst e) (snd e) / (2 * PI))).
    + apply (lim_sum (edges_of path) (fun e z => edge_term 0 (fst e) (snd e) 0 (P3 (fst q) (snd q) z))). intros e He. apply e0_limit. now apply H.
    + rewrite (sum_ext _ _ (fun e => / (2 * PI) * angle q (fst e) (snd e))) by (intros; unfold Rdiv; ring). rewrite sum_scal.
      unfold path_sum in S. rewrite S. field. apply PI_neq0.
  - destruct Hh as [Hh|Hh]; [|discriminate]. specialize (IH (or_introl Hh)).
    set (F := fun k z => path_sum (fun a b => edge_term 0 a b 0 (image h k (P3 (fst q) (snd q) z))) path) in *.
    apply (filterlim_ext (fun z => sum_over (images (Z.of_nat n)) (fun k => F k z) + (F (- Z.of_nat (Datatypes.S n))%Z z + F (Z.of_nat (Datatypes.S n)) z))).
    { intros z. rewrite images_S, sum_cons, sum_app, sum_cons. fold F. cbn [sum_over map sumR]. unfold F. ring. }
    replace (IZR k) with (IZR k + 0) by ring. apply (lim_plus (fun z => sum_over (images (Z.of_nat n)) (fun k => F k z))); [exact IH|].
    set (m := Z.of_nat (Datatypes.S n)). assert (Hm : 2 * IZR m * h <> 0).
    { apply Rmult_integral_contrapositive_currified; [|exact Hh]. apply Rmult_integral_contrapositive_currified; [lra|]. apply not_0_IZR. unfold m. lia. }
    assert (L : forall z0, z0 <> 0 -> limit_from_above (fun z => path_sum (fun a b => edge_term 0 a b 0 (P3 (fst q) (snd q) (z + z0))) path)
       (path_sum (fun a b => edge_term 0 a b 0 (P3 (fst q) (snd q) z0)) path)).
    { intros z0 Hz. unfold path_sum. apply (lim_sum (edges_of path) (fun e z => edge_term 0 (fst e) (snd e) 0 (P3 (fst q) (snd q) (z + z0)))).
      intros e _. apply lim_cont; [now apply e0_cont|]. now rewrite Rplus_0_l. }
    replace 0 with (path_sum (fun a b => edge_term 0 a b 0 (P3 (fst q) (snd q) (2 * IZR (- m) * h))) path +
                    path_sum (fun a b => edge_term 0 a b 0 (P3 (fst q) (snd q) (2 * IZR m * h))) path).
    + apply (lim_plus (F (- m)%Z) (F m)); apply L; [|exact Hm]. rewrite opp_IZR. lra.
    + unfold path_sum. rewrite <- sum_plus. apply sum_zero.
      intros e _. rewrite opp_IZR. replace (2 * - IZR m * h) with (- (2 * IZR m * h)) by ring. rewrite e0_odd. ring.
Qed.
Lemma boundary q paths ks (n : nat) h : (forall path, In path paths -> path <> [] /\ off_path q path) ->
  List.Forall2 (winds q) paths ks -> h <> 0 \/ n = 0%nat ->
  limit_from_above (fun z => value (EPolygon paths (Z.of_nat n) h) 0 0 (P3 (fst q) (snd q) z)) (sum_over ks IZR).
Proof.
  intros H F Hh. assert (NI : ~ In [] paths) by (intros I; now apply (H [] I)).
  apply (filterlim_ext (fun z => sum_over paths (path_value 0 0 (Z.of_nat n) h (P3 (fst q) (snd q) z)))).
  { intros z. now rewrite polygon_value. }
  clear NI. induction F as [|path k paths ks W F IH].
  - now apply (lim_const _ _ 0).
  - apply (lim_plus (fun z => path_value 0 0 (Z.of_nat n) h (P3 (fst q) (snd q) z) path)).
    + apply path_limit; auto; apply (H path); now left.
    + apply IH. intros p Hp. apply H. now right.
Qed.
Lemma boundary_below q paths ks (n : nat) h : (forall path, In path paths -> path <> [] /\ off_path q path) ->
  List.Forall2 (winds q) paths ks -> h <> 0 \/ n = 0%nat ->
  limit_from_below (fun z => value (EPolygon paths (Z.of_nat n) h) 0 0 (P3 (fst q) (snd q) z)) (- sum_over ks IZR).
Proof.
  intros H F Hh. pose proof (boundary q paths ks n h H F Hh) as L. assert (NI : ~ In [] paths) by (intros I; now apply (H [] I)).
  unfold limit_from_below.
  apply (filterlim_ext (fun z => - value (EPolygon paths (Z.of_nat n) h) 0 0 (P3 (fst q) (snd q) (- z)))).
  { intros z. change (P3 (fst q) (snd q) (- z)) with (mirror (P3 (fst q) (snd q) z)).
    rewrite value_mirror; [|exact I|exact NI]. change (z_order 0 0) with 0%nat. cbn [pow]. ring. }
  apply (filterlim_comp _ _ _ (fun z => value (EPolygon paths (Z.of_nat n) h) 0 0 (P3 (fst q) (snd q) (- z))) Ropp _ (locally (sum_over ks IZR))).
  - apply (filterlim_comp _ _ _ Ropp (fun z => value (EPolygon paths (Z.of_nat n) h) 0 0 (P3 (fst q) (snd q) z)) _ (at_right 0)); [|exact L].
    intros Q [e He]. exists e. intros y Hy Hl. apply He; [|lra]. unfold ball in *. cbn in *. unfold AbsRing_ball, abs, minus, plus, opp in *. cbn in *.
    replace (- y + - 0) with (- (y + - 0)) by ring. now rewrite Rabs_Ropp.
  - apply (filterlim_opp (V := R_NormedModule)).
Qed.

(** ** Triangles *)
Definition cr (q a b : p2) : R := (fst a - fst q) * (snd b - snd q) - (snd a - snd q) * (fst b - fst q).
Lemma cr_on q a b : on_segment q a b -> cr q a b = 0.
Proof. intros (t & _ & X & Y). unfold cr. rewrite X, Y. ring. Qed.
Lemma tri_area a b c : 2 * signed_area [a; b; c] = cr a b c.
Proof. unfold signed_area, cross2, cr, edges_of, sum_over. cbn [combine last removelast map fst snd sumR]. field. Qed.
Lemma cr_sum a b c q : cr q c a + cr q a b + cr q b c = cr a b c.
Proof. unfold cr. ring. Qed.
(** the weights of q *)
Lemma weights a b c q u v w : u + v + w = 1 ->
  fst q = u * fst a + v * fst b + w * fst c -> snd q = u * snd a + v * snd b + w * snd c ->
  cr q b c = u * cr a b c /\ cr q c a = v * cr a b c /\ cr q a b = w * cr a b c.
Proof. intros S X Y. assert (u = 1 - v - w) by lra. subst u. unfold cr. rewrite X, Y. repeat split; ring. Qed.
Lemma weights_conv a b c q : cr a b c <> 0 ->
  let u := cr q b c / cr a b c in let v := cr q c a / cr a b c in let w := cr q a b / cr a b c in
  u + v + w = 1 /\ fst q = u * fst a + v * fst b + w * fst c /\ snd q = u * snd a + v * snd b + w * snd c.
Proof.
  intros N. cbn zeta. unfold cr in *. repeat split; field; exact N.
Qed.
Lemma tri_edges a b c : edges_of [a; b; c] = [(c, a); (a, b); (b, c)].
Proof. reflexivity. Qed.
Lemma tri_winds a b c q k : off_path q [a; b; c] -> winds q [a; b; c] k ->
  exists x y z, turns q c a x /\ turns q a b y /\ turns q b c z /\ x + y + z = IZR k * (2 * PI).
Proof.
  intros _ (als & F & S). rewrite tri_edges in F. inversion F; subst. inversion H3; subst. inversion H5; subst. inversion H7; subst.
  cbn [fst snd] in *. exists y, y0, y1. repeat (split; [assumption|]). cbn [sumR] in S. lra.
Qed.
Lemma off_tri a b c q : ~ on_segment q c a -> ~ on_segment q a b -> ~ on_segment q b c -> off_path q [a; b; c].
Proof. intros A B C e. rewrite tri_edges. cbn [In]. intros [<-|[<-|[<-|[]]]]; assumption. Qed.
Lemma inside_off a b c q : 0 < signed_area [a; b; c] -> inside3 a b c q ->
  0 < cr q c a /\ 0 < cr q a b /\ 0 < cr q b c /\ off_path q [a; b; c].
Proof.
  intros A (u & v & w & Hu & Hv & Hw & S & X & Y). pose proof (tri_area a b c) as T.
  destruct (weights a b c q u v w S X Y) as (E1 & E2 & E3).
  assert (H1 : 0 < cr q c a) by (rewrite E2; apply Rmult_lt_0_compat; lra).
  assert (H2 : 0 < cr q a b) by (rewrite E3; apply Rmult_lt_0_compat; lra).
  assert (H3 : 0 < cr q b c) by (rewrite E1; apply Rmult_lt_0_compat; lra).
  repeat (split; [assumption|]). apply off_tri; intros O; apply cr_on in O; lra.
Qed.
Lemma seg_closed a b c q : (on_segment q c a \/ on_segment q a b \/ on_segment q b c) -> in_closed3 a b c q.
Proof.
  intros [(t & B & X & Y)|[(t & B & X & Y)|(t & B & X & Y)]].
  - exists t, 0, (1 - t). rewrite X, Y. repeat split; try lra; ring.
  - exists (1 - t), t, 0. rewrite X, Y. repeat split; try lra; ring.
  - exists 0, (1 - t), t. rewrite X, Y. repeat split; try lra; ring.
Qed.
Lemma inside_winds a b c q k : 0 < signed_area [a; b; c] -> inside3 a b c q -> winds q [a; b; c] k -> k = 1%Z.
Proof.
  intros A I W. destruct (inside_off a b c q A I) as (P1 & P2 & P3 & O).
  destruct (tri_winds a b c q k O W) as (x & y & z & T1 & T2 & T3 & S).
  assert (O1 : ~ on_segment q c a) by (intros H; apply cr_on in H; lra).
  assert (O2 : ~ on_segment q a b) by (intros H; apply cr_on in H; lra).
  assert (O3 : ~ on_segment q b c) by (intros H; apply cr_on in H; lra).
  pose proof (proj1 (turns_sign _ _ _ _ T1 O1) P1). pose proof (proj1 (turns_sign _ _ _ _ T2 O2) P2). pose proof (proj1 (turns_sign _ _ _ _ T3 O3) P3).
  destruct T1 as [B1 _], T2 as [B2 _], T3 as [B3 _]. pose proof PI_RGT_0 as PP.
  assert (0 < IZR k) by (apply (Rmult_lt_reg_r (2 * PI)); lra).
  assert (IZR k < 2) by (apply (Rmult_lt_reg_r (2 * PI)); lra).
  apply (lt_IZR 0) in H2. apply (lt_IZR _ 2) in H3. lia.
Qed.
Lemma outside_winds a b c q k : 0 < signed_area [a; b; c] -> ~ in_closed3 a b c q -> winds q [a; b; c] k -> k = 0%Z.
Proof.
  intros A I W. pose proof (tri_area a b c) as T. set (D := cr a b c) in *.
  assert (O1 : ~ on_segment q c a) by (intros H; apply I, seg_closed; auto).
  assert (O2 : ~ on_segment q a b) by (intros H; apply I, seg_closed; auto).
  assert (O3 : ~ on_segment q b c) by (intros H; apply I, seg_closed; auto).
  destruct (tri_winds a b c q k (off_tri _ _ _ _ O1 O2 O3) W) as (x & y & z & T1 & T2 & T3 & S).
  destruct (turns_sign _ _ _ _ T1 O1) as (p1 & n1 & _). destruct (turns_sign _ _ _ _ T2 O2) as (p2 & n2 & _).
  destruct (turns_sign _ _ _ _ T3 O3) as (p3 & n3 & _).
  change (_ - _) with (cr q c a) in p1 at 1. change (_ - _) with (cr q c a) in n1 at 1.
  change (_ - _) with (cr q a b) in p2 at 1. change (_ - _) with (cr q a b) in n2 at 1.
  change (_ - _) with (cr q b c) in p3 at 1. change (_ - _) with (cr q b c) in n3 at 1.
  pose proof (cr_sum a b c q) as CS. fold D in CS.
  assert (Neg : cr q c a < 0 \/ cr q a b < 0 \/ cr q b c < 0).
  { destruct (Rlt_le_dec (cr q c a) 0) as [?|L1]; [now left|]. destruct (Rlt_le_dec (cr q a b) 0) as [?|L2]; [now right; left|].
    destruct (Rlt_le_dec (cr q b c) 0) as [?|L3]; [now right; right|]. exfalso. apply I.
    destruct (weights_conv a b c q ltac:(fold D; lra)) as (E & X & Y). fold D in E, X, Y.
    exists (cr q b c / D), (cr q c a / D), (cr q a b / D).
    assert (Di : 0 < / D) by (apply Rinv_0_lt_compat; lra).
    repeat split; try assumption; unfold Rdiv; apply Rmult_le_pos; lra. }
  assert (Pos : 0 < cr q c a \/ 0 < cr q a b \/ 0 < cr q b c).
  { destruct (Rlt_le_dec 0 (cr q c a)); [now left|]. destruct (Rlt_le_dec 0 (cr q a b)); [now right; left|].
    destruct (Rlt_le_dec 0 (cr q b c)); [now right; right|]. exfalso. lra. }
  destruct T1 as [B1 _], T2 as [B2 _], T3 as [B3 _].
  apply (turn_small _ _ S).
  assert (N' : x < 0 \/ y < 0 \/ z < 0) by tauto. assert (P' : 0 < x \/ 0 < y \/ 0 < z) by tauto.
  clear - B1 B2 B3 N' P'. destruct N' as [?|[?|?]], P' as [?|[?|?]]; lra.
Qed.
Lemma tri_limits a b c q (n : nat) h k : off_path q [a; b; c] -> h <> 0 \/ n = 0%nat ->
  (forall k', winds q [a; b; c] k' -> k' = k) ->
  limit_from_above (fun z => value (EPolygon [[a; b; c]] (Z.of_nat n) h) 0 0 (P3 (fst q) (snd q) z)) (IZR k).
Proof.
  intros O Hh U. destruct (winds_exists q [a; b; c] ltac:(discriminate) O) as [k' W]. pose proof (U _ W). subst k'.
  replace (IZR k) with (sum_over [k] IZR) by (unfold sum_over; cbn; ring).
  apply boundary; [|repeat constructor; exact W|exact Hh]. intros p [<-|[]]. split; [discriminate|exact O].
Qed.
Lemma triangle_inside a b c q (n : nat) h : 0 < signed_area [a; b; c] -> inside3 a b c q -> h <> 0 \/ n = 0%nat ->
  limit_from_above (fun z => value (EPolygon [[a; b; c]] (Z.of_nat n) h) 0 0 (P3 (fst q) (snd q) z)) 1.
Proof.
  intros A I Hh. apply (tri_limits a b c q n h 1%Z); [apply (inside_off a b c q A I)|exact Hh|].
  intros k W. exact (inside_winds a b c q k A I W).
Qed.
Lemma triangle_outside a b c q (n : nat) h : 0 < signed_area [a; b; c] -> ~ in_closed3 a b c q -> h <> 0 \/ n = 0%nat ->
  limit_from_above (fun z => value (EPolygon [[a; b; c]] (Z.of_nat n) h) 0 0 (P3 (fst q) (snd q) z)) 0.
Proof.
  intros A I Hh. apply (tri_limits a b c q n h 0%Z); [|exact Hh|].
  - apply off_tri; intros H; apply I, seg_closed; auto.
  - intros k W. exact (outside_winds a b c q k A I W).
Qed.

(** Vertical slices of convex polygons. *)
From Verif Require Import Base ModelField SpecField SpecMax ProofPoly2.
Open Scope R_scope.
Notation length := List.length.

Lemma removelast_len (path : list p2) : path <> [] -> length path = S (length (removelast path)).
Proof. intros N. destruct (exists_last N) as (l & a & ->). rewrite removelast_last, app_length. cbn [List.length]. lia. Qed.
Lemma edges_snd path : path <> [] -> map snd (edges_of path) = path.
Proof.
  intros N. unfold edges_of. set (k := last path (0, 0) :: removelast path).
  assert (L : length k = length path).
  { unfold k. symmetry. apply removelast_len. exact N. }
  clearbody k. revert k L. clear N. induction path as [|v l IH]; intros [|w k] L; try discriminate L; [reflexivity|]. cbn [combine map snd]. f_equal. apply IH. cbn in L. lia.
Qed.
Lemma edges_fst path : path <> [] -> map fst (edges_of path) = last path (0, 0) :: removelast path.
Proof.
  intros N. unfold edges_of. set (k := last path (0, 0) :: removelast path).
  assert (L : length k = length path).
  { unfold k. symmetry. apply removelast_len. exact N. }
  clearbody k. revert k L. clear N. induction path as [|v l IH]; intros [|w k] L; try discriminate L; [reflexivity|]. cbn [combine map fst]. f_equal. apply IH. cbn in L. lia.
Qed.
Lemma in_fst path v : path <> [] -> (In v path <-> In v (last path (0, 0) :: removelast path)).
Proof.
  intros N. rewrite (app_removelast_last (0, 0) N) at 1. split; intros H.
  - apply in_app_or in H. destruct H as [H|[H|[]]]; [right; exact H|left; exact H].
  - apply in_or_app. destruct H as [H|H]; [right; left; exact H|left; exact H].
Qed.
Lemma edge_ends path e : path <> [] -> In e (edges_of path) -> In (fst e) path /\ In (snd e) path.
Proof.
  intros N H. split.
  - apply in_fst; [exact N|]. rewrite <- edges_fst by exact N. apply in_map. exact H.
  - rewrite <- (edges_snd path N). apply in_map. exact H.
Qed.
Lemma edge_into path v : path <> [] -> In v path -> exists e, In e (edges_of path) /\ snd e = v.
Proof. intros N H. rewrite <- (edges_snd path N) in H. apply in_map_iff in H. destruct H as [e [E I]]. exists e. split; assumption. Qed.
Lemma edge_from path v : path <> [] -> In v path -> exists e, In e (edges_of path) /\ fst e = v.
Proof. intros N H. apply in_fst in H; [|exact N]. rewrite <- edges_fst in H by exact N. apply in_map_iff in H. destruct H as [e [E I]]. exists e. split; assumption. Qed.
Lemma edges_closed path (f : p2 -> R) : path <> [] -> sum_over (edges_of path) (fun e => f (snd e) - f (fst e)) = 0.
Proof.
  intros N. assert (G : forall l, sum_over l (fun e : p2 * p2 => f (snd e) - f (fst e)) = sumR (map f (map snd l)) - sumR (map f (map fst l))).
  { intros l. unfold sum_over. induction l as [|e l IH]; cbn [map sumR]; [ring|]. rewrite IH. ring. }
  rewrite G, edges_snd, edges_fst by exact N. destruct (exists_last N) as (l0 & v0 & EL). rewrite EL. rewrite last_last, removelast_last, map_app. cbn [map].
  assert (A : forall a b, sumR (a ++ b) = sumR a + sumR b) by (intros a b; induction a as [|x a IH]; cbn [app sumR]; [ring|rewrite IH; ring]).
  rewrite A. cbn [sumR]. ring.
Qed.
Lemma edges_nodup path : path <> [] -> NoDup path -> NoDup (edges_of path).
Proof. intros N D. apply (NoDup_map_inv snd). rewrite edges_snd by exact N. exact D. Qed.

(** ** crossings *)
Definition rightward (x : R) (e : p2 * p2) : Prop := fst (fst e) < x < fst (snd e).
Definition leftward (x : R) (e : p2 * p2) : Prop := fst (snd e) < x < fst (fst e).
Definition height (e : p2 * p2) (x : R) : R := snd (fst e) + (snd (snd e) - snd (fst e)) / (fst (snd e) - fst (fst e)) * (x - fst (fst e)).
Definition swap (e : p2 * p2) : p2 * p2 := (snd e, fst e).
Lemma left_height (e : p2 * p2) x y : fst (snd e) <> fst (fst e) -> left_of (fst e) (snd e) (x, y) = (fst (snd e) - fst (fst e)) * (y - height e x).
Proof. destruct e as [[a b] [c d]]. unfold left_of, height. cbn [fst snd]. intros N. field. lra. Qed.
(** the point of e at the abscissa x is a mean of its ends *)
Lemma left_mean e x (d : p2 * p2) : rightward x e \/ leftward x e -> exists u v, 0 < u /\ 0 < v /\ u + v = 1 /\
  forall d, left_of (fst d) (snd d) (x, height e x) = u * left_of (fst d) (snd d) (fst e) + v * left_of (fst d) (snd d) (snd e).
Proof.
  intros H. set (a := fst (fst e)). set (b := fst (snd e)). assert (N : b - a <> 0) by (unfold a, b; destruct H as [H|H]; unfold rightward, leftward in H; lra).
  exists ((b - x) / (b - a)), ((x - a) / (b - a)).
  assert (P : 0 < (b - x) / (b - a) /\ 0 < (x - a) / (b - a)).
  { destruct H as [H|H]; unfold rightward, leftward in H; fold a b in H; split.
    - apply Rdiv_lt_0_compat; lra.
    - apply Rdiv_lt_0_compat; lra.
    - replace ((b - x) / (b - a)) with ((x - b) / (a - b)) by (field; lra). apply Rdiv_lt_0_compat; lra.
    - replace ((x - a) / (b - a)) with ((a - x) / (a - b)) by (field; lra). apply Rdiv_lt_0_compat; lra. }
  split; [apply P|]. split; [apply P|]. split; [field; exact N|]. intros d'. revert N. unfold a, b. destruct e as [[e1 e2] [e3 e4]], d' as [[d1 d2] [d3 d4]]. unfold left_of, height. cbn [fst snd]. intros N. field. exact N.
Qed.
Lemma leftward_ne x (e : p2 * p2) : leftward x e -> fst (snd e) <> fst (fst e).
Proof. intros [H1 H2] E. rewrite E in H1. lra. Qed.
Lemma rightward_ne x (e : p2 * p2) : rightward x e -> fst (snd e) <> fst (fst e).
Proof. intros [H1 H2] E. rewrite E in H2. lra. Qed.
Section Convex.
Variable path : list p2.
Hypothesis C : convex path.
Lemma cv_ne : path <> [].
Proof. destruct C as [_ [L _]]. intros ->. cbn in L. lia. Qed.
Lemma cv_nonneg e v : In e (edges_of path) -> In v path -> 0 <= left_of (fst e) (snd e) v.
Proof.
  intros He Hv. destruct C as [_ [_ K]]. destruct (K e v He Hv) as [->|[->|P]]; [| |lra]; unfold left_of; [|]; apply Req_le; ring.
Qed.
Lemma cv_zero e v : In e (edges_of path) -> In v path -> left_of (fst e) (snd e) v = 0 -> v = fst e \/ v = snd e.
Proof. intros He Hv Z. destruct C as [_ [_ K]]. destruct (K e v He Hv) as [->|[->|P]]; [left; reflexivity|right; reflexivity|lra]. Qed.
(** two sides are never the same line in opposite directions *)
Lemma no_swap e : In e (edges_of path) -> In (swap e) (edges_of path) -> False.
Proof.
  intros H1 H2. destruct C as [D [L K]].
  assert (T : exists v, In v path /\ v <> fst e /\ v <> snd e).
  { destruct path as [|p [|q [|r l]]]; try (cbn in L; lia). clear -D. inversion D as [|? ? Np D1]; subst. inversion D1 as [|? ? Nq D2]; subst.
    assert (pq : p <> q) by (intros ->; apply Np; left; reflexivity). assert (pr : p <> r) by (intros ->; apply Np; right; left; reflexivity).
    assert (qr : q <> r) by (intros ->; apply Nq; left; reflexivity).
    assert (dec : forall a b : p2, a = b \/ a <> b).
    { intros [a1 a2] [b1 b2]. destruct (Req_dec a1 b1) as [->|N]; [|right; intros E; injection E; intros; contradiction]. destruct (Req_dec a2 b2) as [->|N]; [left; reflexivity|right; intros E; injection E; intros; contradiction]. }
    destruct (dec p (fst e)) as [E1|E1]; [|destruct (dec p (snd e)) as [E2|E2]; [|exists p; split; [left; reflexivity|split; assumption]]].
    - destruct (dec q (snd e)) as [E2|E2]; [exists r|exists q]; (split; [cbn; tauto|]); split; congruence.
    - destruct (dec q (fst e)) as [E3|E3]; [exists r|exists q]; (split; [cbn; tauto|]); split; congruence. }
  destruct T as [v [Hv [N1 N2]]]. destruct (K e v H1 Hv) as [E|[E|P1]]; try contradiction. destruct (K (swap e) v H2 Hv) as [E|[E|P2]]; cbn [swap fst snd] in *; try contradiction.
  unfold left_of in P1, P2. lra.
Qed.
Lemma slice_nonneg e d x : In e (edges_of path) -> In d (edges_of path) -> rightward x e \/ leftward x e -> 0 <= left_of (fst d) (snd d) (x, height e x).
Proof.
  intros He Hd H. destruct (left_mean e x d H) as (u & v & Pu & Pv & _ & E). rewrite E. destruct (edge_ends path e cv_ne He) as [I1 I2].
  pose proof (cv_nonneg d (fst e) Hd I1). pose proof (cv_nonneg d (snd e) Hd I2). pose proof (Rmult_le_pos u (left_of (fst d) (snd d) (fst e)) ltac:(lra) ltac:(lra)).
  pose proof (Rmult_le_pos v (left_of (fst d) (snd d) (snd e)) ltac:(lra) ltac:(lra)). lra.
Qed.
Lemma slice_zero e d x : In e (edges_of path) -> In d (edges_of path) -> rightward x e \/ leftward x e -> left_of (fst d) (snd d) (x, height e x) = 0 -> d = e \/ d = swap e.
Proof.
  intros He Hd H Z. destruct (left_mean e x d H) as (u & v & Pu & Pv & _ & E). rewrite E in Z. destruct (edge_ends path e cv_ne He) as [I1 I2].
  pose proof (cv_nonneg d (fst e) Hd I1) as N1. pose proof (cv_nonneg d (snd e) Hd I2) as N2.
  pose proof (Rmult_le_pos u (left_of (fst d) (snd d) (fst e)) ltac:(lra) ltac:(lra)) as M1. pose proof (Rmult_le_pos v (left_of (fst d) (snd d) (snd e)) ltac:(lra) ltac:(lra)) as M2.
  assert (Z1 : left_of (fst d) (snd d) (fst e) = 0) by (apply (Rmult_eq_reg_l u); lra). assert (Z2 : left_of (fst d) (snd d) (snd e) = 0) by (apply (Rmult_eq_reg_l v); lra).
  assert (N : fst e <> snd e) by (intros K; destruct H as [H|H]; unfold rightward, leftward in H; rewrite K in H; lra).
  destruct d as [d1 d2], e as [e1 e2]. cbn [fst snd swap] in *.
  destruct (cv_zero (d1, d2) e1 Hd I1 Z1) as [A|A], (cv_zero (d1, d2) e2 Hd I2 Z2) as [B|B]; cbn [fst snd] in A, B; subst; try (contradiction N; reflexivity); [left|right]; reflexivity.
Qed.
Lemma leftward_unique e d x : In e (edges_of path) -> In d (edges_of path) -> leftward x e -> leftward x d -> d = e.
Proof.
  intros He Hd Le Ld. pose proof (slice_nonneg e d x He Hd (or_intror Le)) as A. pose proof (slice_nonneg d e x Hd He (or_intror Ld)) as B.
  rewrite left_height in A by (exact (leftward_ne _ _ Ld)). rewrite left_height in B by (exact (leftward_ne _ _ Le)).
  assert (Z : height d x = height e x).
  { unfold leftward in Le, Ld. destruct (Rtotal_order (height d x) (height e x)) as [L|[E|L]]; [|exact E|]; exfalso.
    - pose proof (Rmult_lt_0_compat (fst (fst d) - fst (snd d)) (height e x - height d x) ltac:(lra) ltac:(lra)) as M. lra.
    - pose proof (Rmult_lt_0_compat (fst (fst e) - fst (snd e)) (height d x - height e x) ltac:(lra) ltac:(lra)) as M. lra. }
  destruct (slice_zero e d x He Hd (or_intror Le)) as [E|E]; [|exact E|].
  - rewrite left_height by (exact (leftward_ne _ _ Ld)). rewrite Z. ring.
  - exfalso. subst d. unfold leftward, swap in *. cbn [fst snd] in *. lra.
Qed.
Lemma rightward_unique e d x : In e (edges_of path) -> In d (edges_of path) -> rightward x e -> rightward x d -> d = e.
Proof.
  intros He Hd Le Ld. pose proof (slice_nonneg e d x He Hd (or_introl Le)) as A. pose proof (slice_nonneg d e x Hd He (or_introl Ld)) as B.
  rewrite left_height in A by (exact (rightward_ne _ _ Ld)). rewrite left_height in B by (exact (rightward_ne _ _ Le)).
  assert (Z : height d x = height e x).
  { unfold rightward in Le, Ld. destruct (Rtotal_order (height d x) (height e x)) as [L|[E|L]]; [|exact E|]; exfalso.
    - pose proof (Rmult_lt_0_compat (fst (snd e) - fst (fst e)) (height e x - height d x) ltac:(lra) ltac:(lra)) as M. lra.
    - pose proof (Rmult_lt_0_compat (fst (snd d) - fst (fst d)) (height d x - height e x) ltac:(lra) ltac:(lra)) as M. lra. }
  destruct (slice_zero e d x He Hd (or_introl Le)) as [E|E]; [|exact E|].
  - rewrite left_height by (exact (rightward_ne _ _ Ld)). rewrite Z. ring.
  - exfalso. subst d. unfold rightward, swap in *. cbn [fst snd] in *. lra.
Qed.
(** lower and upper side *)
Lemma slice_order lo up x : In lo (edges_of path) -> In up (edges_of path) -> rightward x lo -> leftward x up -> height lo x < height up x.
Proof.
  intros Hl Hu Rl Lu. pose proof (slice_nonneg lo up x Hl Hu (or_introl Rl)) as A. rewrite left_height in A by (exact (leftward_ne _ _ Lu)).
  destruct (Rtotal_order (height lo x) (height up x)) as [L|[E|L]]; [exact L| |]; exfalso.
  - destruct (slice_zero lo up x Hl Hu (or_introl Rl)) as [K|K].
    + rewrite left_height by (exact (leftward_ne _ _ Lu)). rewrite E. ring.
    + subst up. unfold rightward, leftward in *. lra.
    + subst up. exact (no_swap lo Hl Hu).
  - unfold leftward in Lu. pose proof (Rmult_lt_0_compat (fst (fst up) - fst (snd up)) (height lo x - height up x) ltac:(lra) ltac:(lra)) as M. lra.
Qed.
Lemma slice_interior lo up x y : In lo (edges_of path) -> In up (edges_of path) -> rightward x lo -> leftward x up ->
  (interior path (x, y) <-> height lo x < y < height up x).
Proof.
  intros Hl Hu Rl Lu. pose proof (slice_order lo up x Hl Hu Rl Lu) as O. split.
  - intros I. pose proof (I lo Hl) as A. pose proof (I up Hu) as B. rewrite left_height in A by (exact (rightward_ne _ _ Rl)). rewrite left_height in B by (exact (leftward_ne _ _ Lu)).
    unfold rightward, leftward in *. split.
    + destruct (Rlt_or_le (height lo x) y) as [L|L]; [exact L|]. exfalso. pose proof (Rmult_le_pos (fst (snd lo) - fst (fst lo)) (height lo x - y) ltac:(lra) ltac:(lra)). lra.
    + destruct (Rlt_or_le y (height up x)) as [L|L]; [exact L|]. exfalso. pose proof (Rmult_le_pos (fst (fst up) - fst (snd up)) (y - height up x) ltac:(lra) ltac:(lra)). lra.
  - intros [Y1 Y2] d Hd. set (m := (y - height lo x) / (height up x - height lo x)).
    assert (M : 0 < m < 1).
    { split; [apply Rdiv_lt_0_compat; lra|]. apply (Rmult_lt_reg_r (height up x - height lo x)); [lra|]. unfold m. replace ((y - height lo x) / (height up x - height lo x) * (height up x - height lo x)) with (y - height lo x) by (field; lra). lra. }
    assert (E : left_of (fst d) (snd d) (x, y) = m * left_of (fst d) (snd d) (x, height up x) + (1 - m) * left_of (fst d) (snd d) (x, height lo x)).
    { unfold left_of. cbn [fst snd]. replace y with (m * height up x + (1 - m) * height lo x) at 1 by (unfold m; field; lra). ring. }
    rewrite E. pose proof (slice_nonneg up d x Hu Hd (or_intror Lu)) as N1. pose proof (slice_nonneg lo d x Hl Hd (or_introl Rl)) as N2.
    pose proof (Rmult_le_pos m _ ltac:(lra) N1) as P1. pose proof (Rmult_le_pos (1 - m) _ ltac:(lra) N2) as P2.
    destruct (Rtotal_order 0 (m * left_of (fst d) (snd d) (x, height up x) + (1 - m) * left_of (fst d) (snd d) (x, height lo x))) as [L|[Z|L]]; [exact L| |lra]. exfalso.
    assert (Z1 : left_of (fst d) (snd d) (x, height up x) = 0) by (apply (Rmult_eq_reg_l m); lra).
    assert (Z2 : left_of (fst d) (snd d) (x, height lo x) = 0) by (apply (Rmult_eq_reg_l (1 - m)); lra).
    destruct (slice_zero up d x Hu Hd (or_intror Lu) Z1) as [K1|K1], (slice_zero lo d x Hl Hd (or_introl Rl) Z2) as [K2|K2].
    + subst d. subst lo. unfold rightward, leftward in *. lra.
    + assert (Q : lo = swap up) by (rewrite <- K1, K2; destruct lo; reflexivity). rewrite Q in Hl; exact (no_swap up Hu Hl).
    + assert (Q : lo = swap up) by congruence. rewrite Q in Hl; exact (no_swap up Hu Hl).
    + assert (Q : lo = up) by (transitivity (swap d); [rewrite K2; destruct lo; reflexivity|rewrite K1; destruct up; reflexivity]). rewrite Q in Rl. unfold rightward, leftward in *. lra.
Qed.
(** as many sides to the right as to the left; x is no abscissa of a corner *)
Definition free (x : R) (l : list p2) : Prop := forall v, In v l -> fst v <> x.
Lemma both_ways x : free x path -> (exists e, In e (edges_of path) /\ rightward x e) <-> (exists e, In e (edges_of path) /\ leftward x e).
Proof.
  intros F. pose proof (edges_closed path (fun v => if Rlt_dec x (fst v) then 1 else 0) cv_ne) as S.
  assert (T : forall e, In e (edges_of path) -> rightward x e /\ (if Rlt_dec x (fst (snd e)) then 1 else 0) - (if Rlt_dec x (fst (fst e)) then 1 else 0) = 1 \/
     leftward x e /\ (if Rlt_dec x (fst (snd e)) then 1 else 0) - (if Rlt_dec x (fst (fst e)) then 1 else 0) = - (1) \/
     (~ rightward x e /\ ~ leftward x e) /\ (if Rlt_dec x (fst (snd e)) then 1 else 0) - (if Rlt_dec x (fst (fst e)) then 1 else 0) = 0).
  { intros e He. destruct (edge_ends path e cv_ne He) as [I1 I2]. pose proof (F _ I1) as N1. pose proof (F _ I2) as N2. unfold rightward, leftward.
    destruct (Rlt_dec x (fst (snd e))) as [A|A], (Rlt_dec x (fst (fst e))) as [B|B]; [right; right|left|right; left|right; right]; (split; [|ring]); lra. }
  set (f := fun e : p2 * p2 => (if Rlt_dec x (fst (snd e)) then 1 else 0) - (if Rlt_dec x (fst (fst e)) then 1 else 0)) in *.
  assert (G : forall l, (forall e, In e l -> In e (edges_of path)) ->
     ((exists e, In e l /\ leftward x e) \/ (0 <= sum_over l f /\ ((exists e, In e l /\ rightward x e) -> 0 < sum_over l f))) /\
     ((exists e, In e l /\ rightward x e) \/ (sum_over l f <= 0 /\ ((exists e, In e l /\ leftward x e) -> sum_over l f < 0)))).
  { induction l as [|e l IH]; intros Hl.
    - unfold sum_over. cbn. split; right; (split; [lra|]); intros (e & [] & _).
    - destruct (IH (fun d Hd => Hl d (or_intror Hd))) as [IL IR]. assert (SC : sum_over (e :: l) f = f e + sum_over l f) by reflexivity. rewrite SC.
      destruct (T e (Hl e (or_introl eq_refl))) as [[R1 V]|[[L1 V]|[[NR NL] V]]]; fold (f e) in V.
      + split; [|left; exists e; split; [left; reflexivity|exact R1]]. destruct IL as [(d & Hd & Ld)|[P _]]; [left; exists d; split; [right; exact Hd|exact Ld]|]. right. split; [lra|intros _; lra].
      + split; [left; exists e; split; [left; reflexivity|exact L1]|]. destruct IR as [(d & Hd & Ld)|[P _]]; [left; exists d; split; [right; exact Hd|exact Ld]|]. right. split; [lra|intros _; lra].
      + split.
        * destruct IL as [(d & Hd & Ld)|[P Q]]; [left; exists d; split; [right; exact Hd|exact Ld]|]. right. split; [lra|]. intros (d & [<-|Hd] & Rd); [contradiction|]. assert (0 < sum_over l f) by (apply Q; exists d; split; assumption). lra.
        * destruct IR as [(d & Hd & Ld)|[P Q]]; [left; exists d; split; [right; exact Hd|exact Ld]|]. right. split; [lra|]. intros (d & [<-|Hd] & Rd); [contradiction|]. assert (sum_over l f < 0) by (apply Q; exists d; split; assumption). lra. }
  destruct (G (edges_of path) (fun e H => H)) as [GL GR]. fold f in S. split; intros H.
  - destruct GL as [K|[_ K]]; [exact K|]. specialize (K H). lra.
  - destruct GR as [K|[_ K]]; [exact K|]. specialize (K H). lra.
Qed.
(** an interior point has sides above and below *)
Lemma interior_crossed x y : free x path -> interior path (x, y) -> exists e, In e (edges_of path) /\ leftward x e.
Proof.
  intros F I.
  assert (D : (exists e, In e (edges_of path) /\ leftward x e) \/ (forall e, In e (edges_of path) -> ~ leftward x e)).
  { generalize (edges_of path) as l. induction l as [|e l [(d & Hd & L)|N]]; [right; intros e []| |].
    - left. exists d. split; [right; exact Hd|exact L].
    - destruct (Rlt_dec (fst (snd e)) x) as [A|A]; [destruct (Rlt_dec x (fst (fst e))) as [B|B]|].
      + left. exists e. split; [left; reflexivity|split; assumption].
      + right. intros d [<-|Hd] L; [unfold leftward in L; lra|exact (N d Hd L)].
      + right. intros d [<-|Hd] L; [unfold leftward in L; lra|exact (N d Hd L)]. }
  destruct D as [D|D]; [exact D|]. exfalso.
  assert (D' : forall e, In e (edges_of path) -> ~ rightward x e).
  { intros e He R. destruct (proj1 (both_ways x F) (ex_intro _ e (conj He R))) as (d & Hd & Ld). exact (D d Hd Ld). }
  (* the corner nearest to the line, on one side; then all on that side *)
  assert (EX : forall (f : p2 -> R) (l : list p2), l <> [] -> exists v, In v l /\ forall w, In w l -> f v <= f w).
  { intros f. induction l as [|v l IH]; intros N; [contradiction|]. destruct l as [|w l]; [exists v; split; [left; reflexivity|intros w [<-|[]]; lra]|].
    destruct (IH ltac:(discriminate)) as (m & Im & M). destruct (Rle_or_lt (f v) (f m)) as [L|L].
    - exists v. split; [left; reflexivity|]. intros u [<-|Hu]; [lra|]. specialize (M u Hu). lra.
    - exists m. split; [right; exact Im|]. intros u [<-|Hu]; [lra|]. apply M. exact Hu. }
  assert (K : forall s : R, s * s = 1 -> (exists v, In v path /\ 0 < s * (fst v - x)) -> (forall v, In v path -> 0 < s * (fst v - x)) -> False).
  { intros s S1 _ P. destruct (EX (fun v => s * fst v) path cv_ne) as (v & Iv & M).
    destruct (edge_into path v cv_ne Iv) as ([u v'] & Hin & E1). cbn [snd] in E1. subst v'. destruct (edge_from path v cv_ne Iv) as ([v' w] & Hout & E2). cbn [fst] in E2. subst v'.
    destruct (edge_ends path _ cv_ne Hin) as [Iu _]. destruct (edge_ends path _ cv_ne Hout) as [_ Iw]. cbn [fst snd] in *.
    pose proof (M u Iu) as Mu. pose proof (M w Iw) as Mw. pose proof (P v Iv) as Pv. pose proof (I _ Hin) as J1. pose proof (I _ Hout) as J2. cbn [fst snd] in J1, J2.
    assert (CV : 0 < left_of u v w).
    { destruct C as [_ [_ Q]]. destruct (Q _ w Hin Iw) as [Eq|[Eq|L]]; cbn [fst snd] in *; [| |exact L].
      - subst w. unfold left_of in J1, J2. cbn [fst snd] in J1, J2. lra.
      - subst w. unfold left_of in J2. cbn [fst snd] in J2. lra. }
    unfold left_of in CV, J1, J2. cbn [fst snd] in CV, J1, J2.
    set (a := s * (fst w - fst v)). set (a' := s * (fst u - fst v)). set (de := s * (fst v - x)). assert (Ha : 0 <= a) by (unfold a; lra). assert (Ha' : 0 <= a') by (unfold a'; lra).
    set (b := snd w - snd v). set (b' := snd u - snd v). set (et := snd (x, y) - snd v). assert (Hd : 0 < de) by (unfold de; lra).
    assert (S3 : s * a = fst w - fst v) by (unfold a; rewrite <- Rmult_assoc, S1; ring). assert (S4 : s * a' = fst u - fst v) by (unfold a'; rewrite <- Rmult_assoc, S1; ring). assert (S5 : s * de = fst v - x) by (unfold de; rewrite <- Rmult_assoc, S1; ring).
    assert (Q2 : 0 < s * (a * et + b * de)). { replace (s * (a * et + b * de)) with (s * a * et + b * (s * de)) by ring. rewrite S3, S5. unfold et, b. cbn [snd]. lra. }
    assert (Q1 : 0 < s * (- (a' * et) - b' * de)). { replace (s * (- (a' * et) - b' * de)) with (- (s * a' * et) - b' * (s * de)) by ring. rewrite S4, S5. unfold et, b'. cbn [snd]. lra. }
    assert (Q3 : 0 < s * (b' * a - a' * b)). { replace (s * (b' * a - a' * b)) with (b' * (s * a) - s * a' * b) by ring. rewrite S3, S4. unfold b, b'. lra. }
    pose proof (Rmult_le_pos a' _ Ha' (Rlt_le _ _ Q2)) as R1. pose proof (Rmult_le_pos a _ Ha (Rlt_le _ _ Q1)) as R2. pose proof (Rmult_lt_0_compat de _ Hd Q3) as R3.
    replace (a' * (s * (a * et + b * de))) with (s * (a * a' * et) + s * (a' * b * de)) in R1 by ring. replace (a * (s * (- (a' * et) - b' * de))) with (- (s * (a * a' * et)) - s * (a * b' * de)) in R2 by ring.
    replace (de * (s * (b' * a - a' * b))) with (s * (a * b' * de) - s * (a' * b * de)) in R3 by ring. lra. }
  (* all corners on one side *)
  assert (SAME : forall e, In e (edges_of path) -> (x < fst (fst e) <-> x < fst (snd e))).
  { intros e He. destruct (edge_ends path e cv_ne He) as [I1 I2]. pose proof (F _ I1) as N1. pose proof (F _ I2) as N2. pose proof (D e He) as DL. pose proof (D' e He) as DR. unfold leftward, rightward in *. split; intros L; [destruct (Rlt_or_le x (fst (snd e))) as [?|?]; [assumption|exfalso; apply DL; lra]|destruct (Rlt_or_le x (fst (fst e))) as [?|?]; [assumption|exfalso; apply DR; lra]]. }
  assert (ALL : (forall v, In v path -> x < fst v) \/ (forall v, In v path -> fst v < x)).
  { assert (CH : forall (l : list p2) (v : p2), (forall e : p2 * p2, In e (combine (v :: l) l) -> (x < fst (fst e) <-> x < fst (snd e))) -> forall w, In w (v :: l) -> (x < fst v <-> x < fst w)).
    { induction l as [|u l IH]; intros v H w [<-|Hw]; try tauto. pose proof (H (v, u) (or_introl eq_refl)) as H1. cbn [fst snd] in H1. rewrite H1. apply IH; [|exact Hw]. intros e He. apply H. right. exact He. }
    destruct path as [|v0 l] eqn:EP; [left; intros v []|]. rewrite <- EP in *.
    assert (LAST : forall w, In w path -> (x < fst (last path (0, 0)) <-> x < fst w)).
    { intros w Hw. apply (CH path (last path (0, 0))); [|right; exact Hw]. intros e He.
      assert (SUB : In e (combine (last path (0, 0) :: removelast path ++ [last path (0,0)]) path)) by (rewrite <- app_removelast_last by exact cv_ne; exact He).
      apply SAME. unfold edges_of. clear -SUB EP.
      assert (AP : forall (a b c : list p2), length a = length c -> combine (a ++ b) c = combine a c).
      { induction a as [|y a IH]; intros b [|k c] L; try discriminate L; [destruct b; reflexivity|]. cbn [app combine]. f_equal. apply IH. cbn in L. lia. }
      rewrite app_comm_cons, AP in SUB; [exact SUB|]. rewrite EP. assert (N : v0 :: l <> []) by discriminate. pose proof (removelast_len _ N) as Q. cbn [List.length] in Q |- *. lia. }
    destruct (Rlt_or_le x (fst (last path (0, 0)))) as [G|G]; [left|right]; intros v Hv; pose proof (LAST v Hv) as T.
    - apply (proj1 T). exact G.
    - pose proof (F v Hv). destruct (Rlt_or_le x (fst v)) as [Q|Q]; [exfalso; apply (proj2 T) in Q; lra|lra]. }
  destruct ALL as [A|A].
  - apply (K 1); [ring|destruct (EX fst path cv_ne) as (v & Iv & _); exists v; split; [exact Iv|specialize (A v Iv); lra]|intros v Iv; specialize (A v Iv); lra].
  - apply (K (- (1))); [ring|destruct (EX fst path cv_ne) as (v & Iv & _); exists v; split; [exact Iv|specialize (A v Iv); lra]|intros v Iv; specialize (A v Iv); lra].
Qed.
End Convex.

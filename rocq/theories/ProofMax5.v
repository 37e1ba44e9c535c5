(** Positivity, the Poisson integral and systems of convex electrodes. *)
From Coquelicot Require Import Coquelicot.
From Verif Require Import Base ModelExpr ModelField SpecField SpecPoly SpecMax ProofField ProofDeriv ProofPoly2 ProofMax ProofMax2 ProofMax3 ProofMax4.
Open Scope R_scope.
Notation length := List.length.

Lemma p2_dec (a b : p2) : a = b \/ a <> b.
Proof.
  destruct a as [a1 a2], b as [b1 b2]. destruct (Req_dec a1 b1) as [->|N]; [|right; intros E; injection E; intros; contradiction]. destruct (Req_dec a2 b2) as [->|N]; [left; reflexivity|right; intros E; injection E; intros; contradiction].
Qed.
Lemma third P a b : convex P -> exists v, In v P /\ v <> a /\ v <> b.
Proof.
  intros [D [L _]]. destruct P as [|p [|q [|r l]]]; try (cbn in L; lia). clear L. inversion D as [|? ? Np D1]; subst. inversion D1 as [|? ? Nq D2]; subst.
  assert (pq : p <> q) by (intros ->; apply Np; left; reflexivity). assert (pr : p <> r) by (intros ->; apply Np; right; left; reflexivity).
  assert (qr : q <> r) by (intros ->; apply Nq; left; reflexivity).
  destruct (p2_dec p a) as [E1|E1]; [|destruct (p2_dec p b) as [E2|E2]; [|exists p; split; [left; reflexivity|split; assumption]]].
  - destruct (p2_dec q b) as [E2|E2]; [exists r|exists q]; (split; [cbn; tauto|]); split; congruence.
  - destruct (p2_dec q a) as [E3|E3]; [exists r|exists q]; (split; [cbn; tauto|]); split; congruence.
Qed.
(** a convex polygon has a side that is not vertical *)
Lemma slanted P : convex P -> exists e, In e (edges_of P) /\ fst (fst e) <> fst (snd e).
Proof.
  intros C. pose proof (cv_ne P C) as N. assert (E : exists v, In v P) by (destruct P as [|v l]; [contradiction|exists v; left; reflexivity]). destruct E as [v Hv].
  destruct (edge_into P v N Hv) as ([a b] & He & Eb). cbn [snd] in Eb. subst v. destruct (Req_dec (fst a) (fst b)) as [Ev|Ev]; [|exists (a, b); split; assumption].
  destruct (edge_from P b N Hv) as ([b' c] & He' & Ec). cbn [fst] in Ec. subst b'. exists (b, c). split; [exact He'|]. cbn [fst snd]. intros Ev'. destruct (edge_ends P _ N He') as [_ Hc]. cbn [snd] in Hc.
  destruct (cv_zero P C (a, b) c He Hc) as [->| ->]; cbn [fst snd] in *.
  - unfold left_of. rewrite <- Ev', <- Ev. ring.
  - exact (no_swap P C (a, b) He He').
  - destruct (third P b b C) as (v & Iv & N1 & _). destruct C as [_ [_ K]]. destruct (K _ v He' Iv) as [Q|[Q|Q]]; cbn [fst snd] in Q; try contradiction. unfold left_of in Q. lra.
Qed.
Lemma gap (cs : list R) : forall a b, a < b -> exists a' b', a <= a' /\ a' < b' /\ b' <= b /\ forall c, In c cs -> ~ a' < c < b'.
Proof.
  induction cs as [|c cs IH]; intros a b L; [exists a, b; repeat split; try lra; intros c []|]. destruct (IH a b L) as (a1 & b1 & A & AB & B & H).
  destruct (Rlt_dec a1 c) as [H1|H1]; [destruct (Rlt_dec c b1) as [H2|H2]|].
  - exists a1, c. repeat split; try lra. intros d [<-|Hd]; [lra|]. pose proof (H d Hd). lra.
  - exists a1, b1. repeat split; try lra. intros d [<-|Hd]; [lra|]. exact (H d Hd).
  - exists a1, b1. repeat split; try lra. intros d [<-|Hd]; [lra|]. exact (H d Hd).
Qed.

Section Positive.
Variable z : R.
Hypothesis Hz : 0 < z.
Lemma height_cont (e : p2 * p2) x : continuous (fun s => kern z s (height e s)) x.
Proof.
  apply (continuous_ext (fun s => 1 * kern z (fst (fst e) + 1 * (s - fst (fst e))) (snd (fst e) + (snd (snd e) - snd (fst e)) / (fst (snd e) - fst (fst e)) * (s - fst (fst e))))).
  - intros s. unfold height. assert (Q : @eq R (fst (fst e) + 1 * (s - fst (fst e))) s) by ring. rewrite Q. apply Rmult_1_l.
  - apply kern_cont. exact Hz.
Qed.
Lemma slices_nonneg P x : convex P -> free x P -> 0 <= slices z P x.
Proof. intros C F. destruct (slice_is z P x C F) as (l & u & L & -> & _). pose proof (kern_le z Hz x l u L). lra. Qed.
Lemma turn_pos P : convex P -> 0 < turn z P.
Proof.
  intros C. destruct (wide [P]) as (X & X0 & B). assert (B' : forall v, In v P -> - X < fst v < X) by (intros v Hv; exact (B P v (or_introl eq_refl) Hv)). pose proof (cv_ne P C) as N.
  destruct (slanted P C) as (e & He & Se). destruct (edge_ends P e N He) as [I1 I2]. pose proof (B' _ I1) as BX1. pose proof (B' _ I2) as BX2.
  destruct (gap (map fst P) (Rmin (fst (fst e)) (fst (snd e))) (Rmax (fst (fst e)) (fst (snd e)))) as (a & b & A1 & AB & B1 & G).
  { unfold Rmin, Rmax. destruct (Rle_dec _ _); lra. }
  assert (IN : forall x, a < x < b -> leftward x e \/ rightward x e).
  { intros x Hx. unfold leftward, rightward, Rmin, Rmax in *. destruct (Rle_dec _ _); [right|left]; lra. }
  assert (BX : - X < a /\ b < X) by (unfold Rmin, Rmax in *; destruct (Rle_dec _ _); lra).
  assert (FR : forall x, a < x < b -> free x P) by (intros x Hx v Hv Ev; apply (G (fst v)); [apply in_map; exact Hv|rewrite Ev; exact Hx]).
  set (m := (a + b) / 2). assert (Hm : a < m < b) by (unfold m; lra).
  assert (BOTH : exists lo up, In lo (edges_of P) /\ In up (edges_of P) /\ rightward m lo /\ leftward m up).
  { pose proof (both_ways P C m (FR m Hm)) as W. destruct (IN m Hm) as [L|R].
    - destruct (proj2 W (ex_intro _ e (conj He L))) as (lo & Hl & Rl). exists lo, e. repeat split; try assumption; try apply Rl; apply L.
    - destruct (proj1 W (ex_intro _ e (conj He R))) as (up & Hu & Lu). exists e, up. repeat split; try assumption; try apply R; apply Lu. }
  destruct BOTH as (lo & up & Hl & Hu & Rl & Lu).
  assert (ST : forall x d, a < x < b -> In d (edges_of P) -> (fst (fst d) < m -> fst (fst d) < x) /\ (m < fst (fst d) -> x < fst (fst d)) /\ (fst (snd d) < m -> fst (snd d) < x) /\ (m < fst (snd d) -> x < fst (snd d))).
  { intros x d Hx Hd. destruct (edge_ends P d N Hd) as [J1 J2]. pose proof (G _ (in_map fst _ _ J1)) as G1. pose proof (G _ (in_map fst _ _ J2)) as G2.
    assert (Q : forall c, ~ a < c < b -> c <= a \/ b <= c) by (intros c Hc; destruct (Rle_or_lt c a) as [?|?]; [left; assumption|right; apply Rnot_lt_le; intros ?; apply Hc; split; assumption]).
    destruct (Q _ G1), (Q _ G2); repeat split; intros; lra. }
  assert (RX : forall x, a < x < b -> rightward x lo) by (intros x Hx; destruct (ST x lo Hx Hl) as (? & ? & ? & ?); destruct Rl; split; auto).
  assert (LX : forall x, a < x < b -> leftward x up) by (intros x Hx; destruct (ST x up Hx Hu) as (? & ? & ? & ?); destruct Lu; split; auto).
  set (D := fun x => kern z x (height up x) - kern z x (height lo x)).
  assert (CD : forall x, continuous D x) by (intros x; apply (continuous_minus (V := R_NormedModule) (fun x => kern z x (height up x)) (fun x => kern z x (height lo x))); apply height_cont).
  assert (PD : 0 < RInt D a b).
  { apply RInt_gt_0; [exact AB| |intros x _; apply CD]. intros x Hx. unfold D. pose proof (slice_order P C lo up x Hl Hu (RX x Hx) (LX x Hx)) as O. pose proof (kern_lt z Hz x _ _ O). lra. }
  assert (ID : is_RInt (slices z P) a b (RInt D a b)).
  { apply (is_RInt_ext (V := R_NormedModule) D).
    - intros x. rewrite Rmin_left, Rmax_right by lra. intros Hx. unfold D. symmetry. apply slices_both; auto.
    - apply (RInt_correct (V := R_CompleteNormedModule)). apply (ex_RInt_continuous (V := R_CompleteNormedModule)). intros x _. apply CD. }
  pose proof (slices_int z Hz (- X) X P N B') as I. assert (EX : ex_RInt (slices z P) (- X) X) by (exists (turn z P); exact I).
  assert (E1 : ex_RInt (slices z P) (- X) a) by (apply (ex_RInt_Chasles_1 (V := R_CompleteNormedModule) _ (- X) a X); [lra|exact EX]).
  assert (E2 : ex_RInt (slices z P) b X) by (apply (ex_RInt_Chasles_2 (V := R_CompleteNormedModule) _ (- X) b X); [lra|exact EX]).
  destruct E1 as [v1 V1]. destruct E2 as [v2 V2].
  assert (Z : forall c d, c <= d -> is_RInt (fun _ : R => 0) c d 0) by (intros c d L; apply rint_zero; [exact L|reflexivity]).
  assert (P1 : 0 <= v1). { apply (rint_le_points (map fst P) (fun _ => 0) (slices z P) (- X) a); [lra| |apply Z; lra|exact V1]. intros x _ NI. apply slices_nonneg; [exact C|]. intros v Hv Ev. apply NI. rewrite <- Ev. apply in_map. exact Hv. }
  assert (P2' : 0 <= v2). { apply (rint_le_points (map fst P) (fun _ => 0) (slices z P) b X); [lra| |apply Z; lra|exact V2]. intros x _ NI. apply slices_nonneg; [exact C|]. intros v Hv Ev. apply NI. rewrite <- Ev. apply in_map. exact Hv. }
  pose proof (is_RInt_Chasles (V := R_NormedModule) _ _ _ _ _ _ (is_RInt_Chasles (V := R_NormedModule) _ _ _ _ _ _ V1 ID) V2) as T.
  assert (ET : turn z P = v1 + RInt D a b + v2).
  { rewrite <- (is_RInt_unique (V := R_CompleteNormedModule) _ _ _ _ I). exact (is_RInt_unique (V := R_CompleteNormedModule) _ _ _ _ T). }
  rewrite ET. lra.
Qed.
End Positive.

(** Bounds for families of convex polygons. *)
From Coquelicot Require Import Coquelicot.
From Verif Require Import Base ModelExpr ModelField SpecField SpecMax ProofField ProofPoly2 ProofMax ProofMax2 ProofMax3.
Open Scope R_scope.
Notation length := List.length.

(** ** increments of a non-decreasing function over disjoint intervals *)
Definition clamp (l u y : R) : R := Rmax l (Rmin y u).
Lemma clamp_mid l u y : l <= y <= u -> clamp l u y = y.
Proof. intros H. unfold clamp. rewrite Rmin_left, Rmax_right; lra. Qed.
Lemma clamp_low l u y : l <= u -> y <= l -> clamp l u y = l.
Proof. intros L H. unfold clamp. rewrite Rmin_left, Rmax_left; lra. Qed.
Lemma clamp_high l u y : l <= u -> u <= y -> clamp l u y = u.
Proof. intros L H. unfold clamp. rewrite Rmin_right, Rmax_right; lra. Qed.
Definition apart (i j : R * R) : Prop := forall y, fst i < y < snd i -> fst j < y < snd j -> False.
Lemma apart_cases l u a b : l < u -> a <= b -> apart (l, u) (a, b) -> a = b \/ b <= l \/ u <= a.
Proof.
  intros L1 L2 H. destruct (Req_dec a b) as [E|N]; [left; exact E|]. right. destruct (Rle_or_lt b l) as [?|A]; [left; assumption|]. destruct (Rle_or_lt u a) as [?|B]; [right; assumption|]. exfalso.
  pose proof (Rmax_l l a). pose proof (Rmax_r l a). pose proof (Rmin_l u b). pose proof (Rmin_r u b).
  assert (M : Rmax l a < Rmin u b) by (apply Rmax_lub_lt; apply Rmin_glb_lt; lra).
  apply (H ((Rmax l a + Rmin u b) / 2)); cbn [fst snd]; lra.
Qed.
Lemma increments : forall (ivs : list (R * R)) (K : R -> R) A C, (forall a b, a <= b -> K a <= K b) -> ForallOrdPairs apart ivs -> A <= C ->
  (forall i, In i ivs -> A <= fst i /\ fst i <= snd i /\ snd i <= C) -> sum_over ivs (fun i => K (snd i) - K (fst i)) <= K C - K A.
Proof.
  induction ivs as [|[l u] ivs IH]; intros K A C MK D AC B.
  - unfold sum_over. cbn. pose proof (MK A C AC). lra.
  - inversion D as [|? ? D1 D2]; subst. destruct (B (l, u) (or_introl eq_refl)) as (B1 & B2 & B3). cbn [fst snd] in *.
    set (K' := fun y => K y - K (clamp l u y)).
    assert (MK' : forall a b, a <= b -> K' a <= K' b).
    { intros a b L. unfold K'. destruct (Rle_or_lt b l) as [H1|H1]; [rewrite !clamp_low by lra; pose proof (MK a b L); lra|]. destruct (Rle_or_lt a l) as [H2|H2].
      - rewrite (clamp_low l u a) by lra. pose proof (MK a l H2). destruct (Rle_or_lt b u) as [H3|H3]; [rewrite clamp_mid by lra; lra|rewrite clamp_high by lra; pose proof (MK u b ltac:(lra)); lra].
      - destruct (Rle_or_lt b u) as [H3|H3]; [rewrite !clamp_mid by lra; lra|]. rewrite (clamp_high l u b) by lra. destruct (Rle_or_lt a u) as [H4|H4]; [rewrite clamp_mid by lra; pose proof (MK u b ltac:(lra)); lra|rewrite clamp_high by lra; pose proof (MK a b L); lra]. }
    pose proof (IH K' A C MK' D2 AC (fun i Hi => B i (or_intror Hi))) as I. change (sum_over ((l, u) :: ivs) (fun i => K (snd i) - K (fst i))) with (K u - K l + sum_over ivs (fun i => K (snd i) - K (fst i))).
    assert (E : sum_over ivs (fun i => K' (snd i) - K' (fst i)) = sum_over ivs (fun i => K (snd i) - K (fst i)) \/ l = u).
    { destruct (Req_dec l u) as [?|N]; [right; assumption|left]. apply sum_ext. intros [a b] Hi. destruct (B _ (or_intror Hi)) as (C1 & C2 & C3). cbn [fst snd] in *. rewrite Forall_forall in D1. specialize (D1 _ Hi).
      destruct (apart_cases l u a b ltac:(lra) C2 D1) as [->|[Q|Q]]; unfold K'; [ring|rewrite !clamp_low by lra; ring|rewrite !clamp_high by lra; ring]. }
    destruct E as [E|E].
    + rewrite E in I. unfold K' in I. rewrite (clamp_high l u C), (clamp_low l u A) in I by lra. lra.
    + subst u. pose proof (IH K A C MK D2 AC (fun i Hi => B i (or_intror Hi))). lra.
Qed.
Lemma sum_le {A} (l : list A) f g : (forall a, In a l -> f a <= g a) -> sum_over l f <= sum_over l g.
Proof. intros H. unfold sum_over. induction l as [|a l IH]; cbn [map sumR]; [lra|]. pose proof (H a (or_introl eq_refl)). pose proof (IH (fun b Hb => H b (or_intror Hb))). lra. Qed.

Section Family.
Variable z : R.
Hypothesis Hz : 0 < z.
(** at abscissa x the slices of the polygons as intervals *)
Lemma family_slices x Ps : (forall P, In P Ps -> convex P /\ free x P) -> ForallOrdPairs disjoint Ps ->
  exists ivs, ForallOrdPairs apart ivs /\ (forall i, In i ivs -> fst i <= snd i) /\
    sum_over Ps (fun P => slices z P x) = sum_over ivs (fun i => kern z x (snd i) - kern z x (fst i)) /\
    Forall2 (fun P i => forall y, interior P (x, y) <-> fst i < y < snd i) Ps ivs.
Proof.
  induction Ps as [|P Ps IH]; intros H D.
  - exists []. repeat split; [constructor|intros i []|constructor].
  - inversion D as [|? ? D1 D2]; subst. destruct (IH (fun Q HQ => H Q (or_intror HQ)) D2) as (ivs & A & B & S & F). destruct (H P (or_introl eq_refl)) as [C0 F0].
    destruct (slice_is z P x C0 F0) as (l & u & L & E & I & _). exists ((l, u) :: ivs). split; [|split; [|split]].
    + constructor; [|exact A]. rewrite Forall_forall in *. intros j Hj. clear -F Hj D1 I. induction F as [|Q i Qs is Fi F IHF]; [destruct Hj|]. destruct Hj as [->|Hj].
      * intros y Y1 Y2. cbn [fst snd] in Y1. apply (D1 Q (or_introl eq_refl) (x, y)); [apply I; exact Y1|apply Fi; exact Y2].
      * apply IHF; [|exact Hj]. intros R HR. apply D1. right. exact HR.
    + intros i [<-|Hi]; [exact L|apply B; exact Hi].
    + unfold sum_over in *. cbn [map sumR fst snd]. rewrite E, S. reflexivity.
    + constructor; [exact I|exact F].
Qed.
Lemma bounds_exist (ivs : list (R * R)) : (forall i, In i ivs -> fst i <= snd i) -> exists A C, A <= C /\ forall i, In i ivs -> A <= fst i /\ fst i <= snd i /\ snd i <= C.
Proof.
  induction ivs as [|[l u] ivs IH]; intros H; [exists 0, 0; split; [lra|intros i []]|]. destruct (IH (fun i Hi => H i (or_intror Hi))) as (A & C & AC & B). pose proof (H _ (or_introl eq_refl)) as L. cbn [fst snd] in L.
  exists (Rmin A l), (Rmax C u). pose proof (Rmin_l A l). pose proof (Rmin_r A l). pose proof (Rmax_l C u). pose proof (Rmax_r C u). split; [lra|]. intros i [<-|Hi]; cbn [fst snd]; [lra|]. destruct (B i Hi) as (? & ? & ?). lra.
Qed.
Lemma family_bound x Ps : (forall P, In P Ps -> convex P /\ free x P) -> ForallOrdPairs disjoint Ps -> sum_over Ps (fun P => slices z P x) < 2 * (z / (x * x + z * z)).
Proof.
  intros H D. destruct (family_slices x Ps H D) as (ivs & A & B & -> & _). destruct (bounds_exist ivs B) as (a & c & ac & Bd).
  pose proof (increments ivs (kern z x) a c (kern_le z Hz x) A ac Bd) as I. pose proof (kern_bound z Hz x a). pose proof (kern_bound z Hz x c). lra.
Qed.
(** disjoint parts of a polygon *)
Lemma family_part x Ps Q : (forall P, In P Ps -> convex P /\ free x P) -> ForallOrdPairs disjoint Ps -> convex Q -> free x Q ->
  (forall P p, In P Ps -> interior P p -> interior Q p) -> sum_over Ps (fun P => slices z P x) <= slices z Q x.
Proof.
  intros H D CQ FQ Sub. destruct (family_slices x Ps H D) as (ivs & A & B & -> & F). destruct (slice_is z Q x CQ FQ) as (l & u & L & E & IQ & _). rewrite E.
  assert (W : forall i, In i ivs -> fst i = snd i \/ (l <= fst i /\ fst i <= snd i /\ snd i <= u)).
  { intros i Hi. assert (X : exists P, In P Ps /\ forall y, interior P (x, y) <-> fst i < y < snd i).
    { clear -F Hi. induction F as [|P j Ps js Fj F IH]; [destruct Hi|]. destruct Hi as [->|Hi]; [exists P; split; [left; reflexivity|exact Fj]|]. destruct (IH Hi) as (R & HR & K). exists R. split; [right; exact HR|exact K]. }
    destruct X as (P & HP & IP). specialize (B i Hi). destruct (Req_dec (fst i) (snd i)) as [Eq|N]; [left; exact Eq|right].
    assert (S : forall y, fst i < y < snd i -> l < y < u) by (intros y Y; apply IQ; apply (Sub P); [exact HP|apply IP; exact Y]).
    split; [|split; [exact B|]].
    - destruct (Rle_or_lt l (fst i)) as [?|G]; [assumption|]. exfalso. pose proof (Rmin_l l (snd i)). pose proof (Rmin_r l (snd i)). assert (M : fst i < Rmin l (snd i)) by (apply Rmin_glb_lt; lra). pose proof (S ((fst i + Rmin l (snd i)) / 2) ltac:(lra)). lra.
    - destruct (Rle_or_lt (snd i) u) as [?|G]; [assumption|]. exfalso. pose proof (Rmax_l u (fst i)). pose proof (Rmax_r u (fst i)). assert (M : Rmax u (fst i) < snd i) by (apply Rmax_lub_lt; lra). pose proof (S ((snd i + Rmax u (fst i)) / 2) ltac:(lra)). lra. }
  set (K := fun y => kern z x (clamp l u y)).
  assert (EK : sum_over ivs (fun i => kern z x (snd i) - kern z x (fst i)) = sum_over ivs (fun i => K (snd i) - K (fst i))).
  { apply sum_ext. intros i Hi. destruct (W i Hi) as [Eq|(W1 & W2 & W3)]; [rewrite Eq; ring|]. unfold K. rewrite !clamp_mid by lra. reflexivity. }
  rewrite EK. destruct (bounds_exist ((l, u) :: ivs)) as (a & c & ac & Bd). { intros i [<-|Hi]; [exact L|apply B; exact Hi]. }
  pose proof (increments ivs K a c) as I. destruct (Bd (l, u) (or_introl eq_refl)) as (b1 & b2 & b3). cbn [fst snd] in b1, b2, b3.
  assert (Kc : K c = kern z x u) by (unfold K; rewrite clamp_high by lra; reflexivity). assert (Ka : K a = kern z x l) by (unfold K; rewrite clamp_low by lra; reflexivity). rewrite Kc, Ka in I. apply I; [|exact A|exact ac|intros i Hi; apply Bd; right; exact Hi].
  intros s t ST. unfold K. apply kern_le; [exact Hz|]. unfold clamp. apply Rle_max_compat_l. apply Rle_min_compat_r. exact ST.
Qed.
(** ** integrals *)
Lemma wide (Ps : list (list p2)) : exists X, 0 < X /\ forall P v, In P Ps -> In v P -> - X < fst v < X.
Proof.
  assert (O : forall P : list p2, exists X, 0 < X /\ forall v, In v P -> - X < fst v < X).
  { induction P as [|v P (X & X0 & H)]; [exists 1; split; [lra|intros v []]|]. exists (Rmax X (Rabs (fst v) + 1)). pose proof (Rmax_l X (Rabs (fst v) + 1)). pose proof (Rmax_r X (Rabs (fst v) + 1)). split; [lra|].
    intros w [<-|Hw]; [|specialize (H w Hw); lra]. pose proof (Rle_abs (fst v)). pose proof (Rle_abs (- fst v)). rewrite Rabs_Ropp in *. lra. }
  induction Ps as [|P Ps (X & X0 & H)]; [exists 1; split; [lra|intros P v []]|]. destruct (O P) as (Y & Y0 & HY). exists (Rmax X Y). pose proof (Rmax_l X Y). pose proof (Rmax_r X Y). split; [lra|].
  intros Q v [<-|HQ] Hv; [specialize (HY v Hv); lra|specialize (H Q v HQ Hv); lra].
Qed.
Lemma lorentz X : is_RInt (fun x => 2 * (z / (x * x + z * z))) (- X) X (4 * atan (X / z)).
Proof.
  assert (E : 4 * atan (X / z) = minus (2 * atan (X / z)) (2 * atan (- X / z))).
  { unfold minus, plus, opp. cbn. replace (- X / z) with (- (X / z)) by (field; lra). rewrite atan_opp. match goal with |- ?a = ?b => change (@eq R a b) end. ring. }
  rewrite E. apply (is_RInt_derive (V := R_CompleteNormedModule) (fun x => 2 * atan (x / z))).
  - intros x _. pose proof (Rle_0_sqr x) as Q. unfold Rsqr in Q. pose proof (Rmult_lt_0_compat _ _ Hz Hz) as ZZ. auto_derive; [exact I|]. field. split; apply Rgt_not_eq; lra.
  - intros x _. pose proof (Rle_0_sqr x) as Q. unfold Rsqr in Q. pose proof (Rmult_lt_0_compat _ _ Hz Hz) as ZZ. apply (@ex_derive_continuous R_AbsRing R_NormedModule). auto_derive. lra.
Qed.
Lemma family_int X Ps : (forall P, In P Ps -> convex P) -> (forall P v, In P Ps -> In v P -> - X < fst v < X) -> is_RInt (fun x => sum_over Ps (fun P => slices z P x)) (- X) X (sum_over Ps (turn z)).
Proof.
  intros C B. apply (rint_sum Ps (slices z)). intros P HP. apply slices_int; [exact Hz|exact (cv_ne P (C P HP))|]. intros v Hv. exact (B P v HP Hv).
Qed.
Definition abscissae (Ps : list (list p2)) : list R := map fst (concat Ps).
Lemma abscissae_free Ps x P : ~ In x (abscissae Ps) -> In P Ps -> free x P.
Proof. intros N HP v Hv E. apply N. unfold abscissae. rewrite <- E. apply in_map. apply in_concat. exists P. split; assumption. Qed.
(** integrals of functions ordered up to finitely many points *)
Lemma rint_le_points cs f g a b v w : a <= b -> (forall x, a < x < b -> ~ In x cs -> f x <= g x) -> is_RInt f a b v -> is_RInt g a b w -> v <= w.
Proof.
  intros L H I J. set (h := fun x => if in_dec Req_EM_T x cs then g x else f x).
  assert (K : is_RInt h a b v). { apply (rint_points cs f h a b v L); [|exact I]. intros x _ N. unfold h. destruct (in_dec Req_EM_T x cs); [contradiction|reflexivity]. }
  apply (is_RInt_le h g a b v w L K J). intros x X. unfold h. destruct (in_dec Req_EM_T x cs); [lra|]. apply H; assumption.
Qed.
Lemma family_turn Ps : (forall P, In P Ps -> convex P) -> ForallOrdPairs disjoint Ps -> sum_over Ps (turn z) < 2 * PI.
Proof.
  intros C D. destruct (wide Ps) as (X & X0 & B).
  assert (L : sum_over Ps (turn z) <= 4 * atan (X / z)).
  { apply (rint_le_points (abscissae Ps) _ _ (- X) X _ _ ltac:(lra)) with (2 := family_int X Ps C B) (3 := lorentz X). intros x _ N. left. apply family_bound; [|exact D]. intros P HP. split; [apply C; exact HP|exact (abscissae_free Ps x P N HP)]. }
  pose proof (atan_bound (X / z)). lra.
Qed.
Lemma part_turn Ps Q : (forall P, In P Ps -> convex P) -> ForallOrdPairs disjoint Ps -> convex Q -> (forall P p, In P Ps -> interior P p -> interior Q p) -> sum_over Ps (turn z) <= turn z Q.
Proof.
  intros C D CQ S. destruct (wide (Q :: Ps)) as (X & X0 & B).
  assert (J : is_RInt (slices z Q) (- X) X (turn z Q)) by (apply slices_int; [exact Hz|exact (cv_ne Q CQ)|intros v Hv; exact (B Q v (or_introl eq_refl) Hv)]).
  apply (rint_le_points (abscissae (Q :: Ps)) _ _ (- X) X _ _ ltac:(lra)) with (2 := family_int X Ps C (fun P v HP Hv => B P v (or_intror HP) Hv)) (3 := J).
  intros x _ N. apply family_part; try assumption.
  - intros P HP. split; [apply C; exact HP|]. exact (abscissae_free (Q :: Ps) x P N (or_intror HP)).
  - exact (abscissae_free (Q :: Ps) x Q N (or_introl eq_refl)).
Qed.
End Family.

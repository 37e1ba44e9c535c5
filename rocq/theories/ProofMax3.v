(** The potential of a convex polygon as an integral over vertical slices. *)
From Coquelicot Require Import Coquelicot.
From Verif Require Import Base ModelExpr ModelField SpecField SpecMax ProofField ProofPoly2 ProofMax ProofMax2.
Open Scope R_scope.
Notation length := List.length.

Lemma sum_ext {A} (l : list A) f g : (forall a, In a l -> f a = g a) -> sum_over l f = sum_over l g.
Proof. intros H. unfold sum_over. f_equal. apply map_ext_in. exact H. Qed.
Lemma sum_single {A} (l : list A) f a : NoDup l -> In a l -> (forall b, In b l -> b <> a -> f b = 0) -> sum_over l f = f a.
Proof.
  induction l as [|c l IH]; intros N I H; [destruct I|]. unfold sum_over in *. cbn [map sumR]. inversion N as [|? ? N1 N2]; subst. destruct I as [->|I].
  - assert (Z : sumR (map f l) = 0). { assert (Q : forall m, (forall b, In b m -> f b = 0) -> sumR (map f m) = 0) by (induction m as [|b m IHm]; intros Hm; cbn [map sumR]; [reflexivity|rewrite (Hm b (or_introl eq_refl)), IHm by (intros d Hd; apply Hm; right; exact Hd); ring]).
      apply Q. intros b Hb. apply H; [right; exact Hb|]. intros ->. contradiction. }
    rewrite Z. ring.
  - rewrite (IH N2 I) by (intros b Hb; apply H; right; exact Hb). rewrite (H c (or_introl eq_refl)) by (intros ->; contradiction). ring.
Qed.
(** ** changing finitely many values of a function keeps its integral *)
Lemma rint_point (f g : R -> R) a b l c : a <= b -> (forall x, a < x < b -> x <> c -> f x = g x) -> is_RInt f a b l -> is_RInt g a b l.
Proof.
  intros L H I. destruct (Rlt_le_dec a c) as [A|A]; [destruct (Rlt_le_dec c b) as [B|B]|].
  - assert (EX : ex_RInt f a b) by (exists l; exact I).
    assert (E1 : ex_RInt f a c) by (apply (ex_RInt_Chasles_1 f a c b); [lra|exact EX]). assert (E2 : ex_RInt f c b) by (apply (ex_RInt_Chasles_2 f a c b); [lra|exact EX]).
    destruct E1 as [l1 I1]. destruct E2 as [l2 I2]. assert (EL : l = l1 + l2).
    { rewrite <- (is_RInt_unique (V := R_CompleteNormedModule) f a b l I). apply (is_RInt_unique (V := R_CompleteNormedModule)). exact (is_RInt_Chasles (V := R_NormedModule) f a c b l1 l2 I1 I2). }
    rewrite EL. apply (is_RInt_Chasles (V := R_NormedModule) g a c b l1 l2).
    + apply (is_RInt_ext (V := R_NormedModule) f); [|exact I1]. intros x. rewrite Rmin_left, Rmax_right by lra. intros X. apply H; lra.
    + apply (is_RInt_ext (V := R_NormedModule) f); [|exact I2]. intros x. rewrite Rmin_left, Rmax_right by lra. intros X. apply H; lra.
  - apply (is_RInt_ext (V := R_NormedModule) f); [|exact I]. intros x. rewrite Rmin_left, Rmax_right by lra. intros X. apply H; lra.
  - apply (is_RInt_ext (V := R_NormedModule) f); [|exact I]. intros x. rewrite Rmin_left, Rmax_right by lra. intros X. apply H; lra.
Qed.
Lemma rint_points cs : forall (f g : R -> R) a b l, a <= b -> (forall x, a < x < b -> ~ In x cs -> f x = g x) -> is_RInt f a b l -> is_RInt g a b l.
Proof.
  induction cs as [|c cs IH]; intros f g a b l L H I.
  - apply (is_RInt_ext (V := R_NormedModule) f); [|exact I]. intros x. rewrite Rmin_left, Rmax_right by lra. intros X. apply H; [exact X|intros []].
  - set (h := fun x => if Req_EM_T x c then g x else f x). apply (IH h g); [exact L| |].
    + intros x X N. unfold h. destruct (Req_EM_T x c) as [E|E]; [reflexivity|]. apply H; [exact X|]. intros [K|K]; [apply E; symmetry; exact K|contradiction].
    + apply (rint_point f h a b l c L); [|exact I]. intros x X N. unfold h. destruct (Req_EM_T x c); [contradiction|reflexivity].
Qed.
Lemma rint_sum {A} (l : list A) (f : A -> R -> R) (v : A -> R) a b : (forall e, In e l -> is_RInt (f e) a b (v e)) ->
  is_RInt (fun x => sum_over l (fun e => f e x)) a b (sum_over l v).
Proof.
  induction l as [|e l IH]; intros H.
  - unfold sum_over. cbn [map sumR]. pose proof (is_RInt_const (V := R_NormedModule) a b 0) as I. unfold scal, mult in I; cbn in I; unfold mult in I; cbn in I. rewrite Rmult_0_r in I. exact I.
  - apply (is_RInt_plus (V := R_NormedModule) (f e) (fun x => sum_over l (fun e => f e x))); [apply H; left; reflexivity|apply IH; intros d Hd; apply H; right; exact Hd].
Qed.

Section Slices.
Variable z : R.
Hypothesis Hz : 0 < z.
(** ** the kernel *)
Lemma kern_bound x y : - (z / (x * x + z * z)) < kern z x y < z / (x * x + z * z).
Proof.
  pose proof (rad_pos z Hz x y) as P. pose proof (rad_sq z x y) as S. pose proof (Rle_0_sqr x) as X. unfold Rsqr in X. pose proof (Rmult_lt_0_compat _ _ Hz Hz) as ZZ.
  assert (B : - rad z x y < y < rad z x y).
  { assert (Q : Rsqr y < Rsqr (rad z x y)) by (unfold Rsqr; rewrite S; lra). apply Rsqr_lt_abs_0 in Q. rewrite (Rabs_pos_eq (rad z x y)) in Q by lra. apply Rabs_def2 in Q. lra. }
  assert (D : 0 < z / (x * x + z * z)) by (apply Rdiv_lt_0_compat; lra).
  assert (E : kern z x y = z / (x * x + z * z) * (y / rad z x y)) by (unfold kern; field; lra). rewrite E.
  assert (F : - (1) < y / rad z x y < 1).
  { split; apply (Rmult_lt_reg_r (rad z x y)); try exact P; unfold Rdiv; rewrite Rmult_assoc, Rinv_l by lra; lra. }
  split.
  - pose proof (Rmult_lt_compat_l _ _ _ D (proj1 F)). lra.
  - pose proof (Rmult_lt_compat_l _ _ _ D (proj2 F)). lra.
Qed.
Lemma kern_deriv x y : is_derive (fun t => kern z x t) y (z / (rad z x y) ^ 3).
Proof.
  pose proof (rad_pos z Hz x y) as P. pose proof (rad_sq z x y) as S. pose proof (Rle_0_sqr x) as X. unfold Rsqr in X. pose proof (Rmult_lt_0_compat _ _ Hz Hz) as ZZ. pose proof (Rle_0_sqr y) as Y. unfold Rsqr in Y.
  unfold kern. evar_last.
  - unfold rad. auto_derive; [|reflexivity]. split; [lra|]. split; [|exact I]. fold (rad z x y). apply Rmult_integral_contrapositive_currified; lra.
  - fold (rad z x y). cbn [pow]. assert (Q : y * y = rad z x y * rad z x y - x * x - z * z) by lra.
    set (r := rad z x y) in *. assert (N : x * x + z * z <> 0) by lra. assert (R0 : r <> 0) by lra.
    transitivity (z / ((x * x + z * z) * r) - z * (y * y) / ((x * x + z * z) * (r * r * r))); [field; split; assumption|]. rewrite Q. field. split; assumption.
Qed.
Lemma poisson_pos x y : 0 < z / rad z x y ^ 3.
Proof. apply Rdiv_lt_0_compat; [exact Hz|]. apply pow_lt. apply rad_pos. exact Hz. Qed.
Lemma kern_lt x y1 y2 : y1 < y2 -> kern z x y1 < kern z x y2.
Proof.
  intros L. apply (incr_function (fun t => kern z x t) m_infty p_infty (fun t => z / rad z x t ^ 3)); try exact I; try exact L.
  - intros t _ _. apply kern_deriv.
  - intros t _ _. apply poisson_pos.
Qed.
Lemma kern_le x y1 y2 : y1 <= y2 -> kern z x y1 <= kern z x y2.
Proof. intros [L| ->]; [left; apply kern_lt; exact L|right; reflexivity]. Qed.
Lemma rad_cont x y : continuous (fun t => z / rad z x t ^ 3) y.
Proof.
  pose proof (rad_pos z Hz x y) as P. pose proof (Rle_0_sqr x) as X. unfold Rsqr in X. pose proof (Rmult_lt_0_compat _ _ Hz Hz) as ZZ. pose proof (Rle_0_sqr y) as Y. unfold Rsqr in Y.
  apply (@ex_derive_continuous R_AbsRing R_NormedModule). unfold rad. auto_derive. split; [lra|]. split; [|exact I]. fold (rad z x y).
  pose proof (pow_lt _ 3 P) as P3'. cbn [pow] in P3'. lra.
Qed.
Lemma kern_int x a b : is_RInt (fun t => z / rad z x t ^ 3) a b (kern z x b - kern z x a).
Proof. apply (is_RInt_derive (V := R_CompleteNormedModule) (fun t => kern z x t)); [intros t _; apply kern_deriv|intros t _; apply rad_cont]. Qed.

(** ** the signed slice function of a side *)
Definition side (e : p2 * p2) (x : R) : R :=
  (if Rlt_dec (fst (snd e)) x then if Rlt_dec x (fst (fst e)) then kern z x (height e x) else 0 else 0) -
  (if Rlt_dec (fst (fst e)) x then if Rlt_dec x (fst (snd e)) then kern z x (height e x) else 0 else 0).
Lemma side_left e x : leftward x e -> side e x = kern z x (height e x).
Proof. intros [A B]. unfold side. repeat destruct (Rlt_dec _ _); try lra. Qed.
Lemma side_right e x : rightward x e -> side e x = - kern z x (height e x).
Proof. intros [A B]. unfold side. repeat destruct (Rlt_dec _ _); try lra. Qed.
Lemma side_none e x : ~ leftward x e -> ~ rightward x e -> side e x = 0.
Proof. intros A B. unfold leftward, rightward in *. unfold side. repeat destruct (Rlt_dec _ _); try lra; exfalso; try (apply A; lra); apply B; lra. Qed.
Definition angle2 (e : p2 * p2) : R := 2 * atan (earg z (fst (fst e)) (snd (fst e)) (fst (snd e)) (snd (snd e))).
Definition corner2 (v : p2) : R := corner z (fst v) (snd v).
Lemma rint_zero f a b : a <= b -> (forall x, a < x < b -> f x = 0) -> is_RInt f a b 0.
Proof.
  intros L H. apply (is_RInt_ext (V := R_NormedModule) (fun _ => 0)).
  - intros x. rewrite Rmin_left, Rmax_right by lra. intros X. symmetry. apply H. exact X.
  - pose proof (is_RInt_const (V := R_NormedModule) a b 0) as I. unfold scal, mult in I; cbn in I; unfold mult in I; cbn in I. rewrite Rmult_0_r in I. exact I.
Qed.
Lemma rint_three (f : R -> R) a b c d (v : R) : is_RInt f a b 0 -> is_RInt f b c v -> is_RInt f c d 0 -> is_RInt f a d v.
Proof.
  intros I1 I2 I3. assert (E : @eq R v (0 + v + 0)) by ring. rewrite E. exact (is_RInt_Chasles (V := R_NormedModule) f a c d _ _ (is_RInt_Chasles (V := R_NormedModule) f a b c _ _ I1 I2) I3).
Qed.
Lemma side_int X1 X2 (e : p2 * p2) : X1 < fst (fst e) < X2 -> X1 < fst (snd e) < X2 -> is_RInt (side e) X1 X2 (angle2 e - (corner2 (snd e) - corner2 (fst e))).
Proof.
  intros A B. unfold angle2, corner2. destruct (Rtotal_order (fst (fst e)) (fst (snd e))) as [L|[E|L]].
  - apply (rint_three _ _ (fst (fst e)) (fst (snd e))).
    + apply rint_zero; [lra|]. intros x Hx. apply side_none; intros [? ?]; lra.
    + pose proof (edge_int z Hz (fst (fst e)) (snd (fst e)) (fst (snd e)) (snd (snd e)) ltac:(apply Rlt_not_eq; exact L)) as I.
      match type of I with is_RInt ?f ?a ?b ?v => match goal with |- is_RInt ?g _ _ ?w => replace w with v by ring; apply (is_RInt_ext (V := R_NormedModule) f g); [|exact I] end end.
      intros x. rewrite Rmin_left, Rmax_right by lra. intros Hx. symmetry. apply side_right. exact Hx.
    + apply rint_zero; [lra|]. intros x Hx. apply side_none; intros [? ?]; lra.
  - pose proof (edge_vertical z Hz (fst (fst e)) (snd (fst e)) (snd (snd e))) as V. rewrite E in V at 2 3.
    match goal with |- is_RInt _ _ _ ?w => replace w with 0 end.
    + apply rint_zero; [lra|]. intros x Hx. apply side_none; intros [? ?]; lra.
    + rewrite <- V. rewrite <- E. ring.
  - apply (rint_three _ _ (fst (snd e)) (fst (fst e))).
    + apply rint_zero; [lra|]. intros x Hx. apply side_none; intros [? ?]; lra.
    + pose proof (edge_int z Hz (fst (fst e)) (snd (fst e)) (fst (snd e)) (snd (snd e)) ltac:(apply Rgt_not_eq; exact L)) as I.
      apply (is_RInt_swap (V := R_NormedModule)) in I. apply (is_RInt_opp (V := R_NormedModule)) in I.
      match type of I with is_RInt ?f ?a ?b ?v => match goal with |- is_RInt ?g _ _ ?w => replace w with v; [apply (is_RInt_ext (V := R_NormedModule) f g); [|exact I]|] end end.
      * intros x. rewrite Rmin_left, Rmax_right by lra. intros Hx. rewrite side_left by exact Hx. unfold height. unfold opp; cbn. match goal with |- ?a = ?b => change (@eq R a b) end. ring.
      * unfold opp; cbn. match goal with |- ?a = ?b => change (@eq R a b) end. ring.
    + apply rint_zero; [lra|]. intros x Hx. apply side_none; intros [? ?]; lra.
Qed.

(** ** the slices of a convex polygon *)
Definition slices (P : list p2) (x : R) : R := sum_over (edges_of P) (fun e => side e x).
Definition turn (P : list p2) : R := sum_over (edges_of P) angle2.
Lemma slices_int X1 X2 P : P <> [] -> (forall v, In v P -> X1 < fst v < X2) -> is_RInt (slices P) X1 X2 (turn P).
Proof.
  intros N B. replace (turn P) with (sum_over (edges_of P) (fun e => angle2 e - (corner2 (snd e) - corner2 (fst e)))).
  - apply (rint_sum (edges_of P) side). intros e He. destruct (edge_ends P e N He) as [I1 I2]. apply side_int; apply B; assumption.
  - pose proof (edges_closed P corner2 N) as C. unfold turn. replace (sum_over (edges_of P) (fun e => angle2 e - (corner2 (snd e) - corner2 (fst e)))) with (sum_over (edges_of P) angle2 - sum_over (edges_of P) (fun e => corner2 (snd e) - corner2 (fst e))).
    + rewrite C. ring.
    + unfold sum_over. generalize (edges_of P). intros l. induction l as [|e l IH]; cbn [map sumR]; [ring|]. rewrite <- IH. ring.
Qed.
Lemma dec_in (l : list (p2 * p2)) x : (exists e, In e l /\ leftward x e) \/ (forall e, In e l -> ~ leftward x e).
Proof.
  induction l as [|e l [(d & Hd & L)|N]]; [right; intros e []| |].
  - left. exists d. split; [right; exact Hd|exact L].
  - destruct (Rlt_dec (fst (snd e)) x) as [A|A]; [destruct (Rlt_dec x (fst (fst e))) as [B|B]|].
    + left. exists e. split; [left; reflexivity|split; assumption].
    + right. intros d [<-|Hd] L; [unfold leftward in L; lra|exact (N d Hd L)].
    + right. intros d [<-|Hd] L; [unfold leftward in L; lra|exact (N d Hd L)].
Qed.
Lemma slices_both P x lo up : convex P -> In lo (edges_of P) -> In up (edges_of P) -> rightward x lo -> leftward x up ->
  slices P x = kern z x (height up x) - kern z x (height lo x).
Proof.
  intros C Hl Hu Rl Lu. pose proof (edges_nodup P (cv_ne P C) (proj1 C)) as N.
  set (fl := fun e : p2 * p2 => if Rlt_dec (fst (snd e)) x then if Rlt_dec x (fst (fst e)) then kern z x (height e x) else 0 else 0).
  set (fr := fun e : p2 * p2 => if Rlt_dec (fst (fst e)) x then if Rlt_dec x (fst (snd e)) then kern z x (height e x) else 0 else 0).
  assert (S : slices P x = sum_over (edges_of P) fl - sum_over (edges_of P) fr).
  { unfold slices, side. fold fl fr. unfold sum_over. generalize (edges_of P). intros l. induction l as [|e l IH]; cbn [map sumR]; [ring|]. rewrite IH. unfold fl, fr. ring. }
  rewrite S, (sum_single _ fl up N Hu), (sum_single _ fr lo N Hl).
  - unfold fl, fr. unfold leftward, rightward in *. repeat destruct (Rlt_dec _ _); try lra.
  - intros d Hd D. unfold fr. destruct (Rlt_dec (fst (fst d)) x) as [A|A]; [|reflexivity]. destruct (Rlt_dec x (fst (snd d))) as [B|B]; [|reflexivity]. exfalso. apply D. apply (rightward_unique P C lo d x Hl Hd Rl). split; assumption.
  - intros d Hd D. unfold fl. destruct (Rlt_dec (fst (snd d)) x) as [A|A]; [|reflexivity]. destruct (Rlt_dec x (fst (fst d))) as [B|B]; [|reflexivity]. exfalso. apply D. apply (leftward_unique P C up d x Hu Hd Lu). split; assumption.
Qed.
(** the slice at x is the interval between l and u *)
Lemma slice_is P x : convex P -> free x P -> exists l u, l <= u /\ slices P x = kern z x u - kern z x l /\ (forall y, interior P (x, y) <-> l < y < u) /\
  ((exists e, In e (edges_of P) /\ (leftward x e \/ rightward x e)) -> l < u).
Proof.
  intros C F. destruct (dec_in (edges_of P) x) as [(up & Hu & Lu)|N].
  - destruct (proj2 (both_ways P C x F) (ex_intro _ up (conj Hu Lu))) as (lo & Hl & Rl). exists (height lo x), (height up x).
    pose proof (slice_order P C lo up x Hl Hu Rl Lu) as O. split; [lra|]. split; [apply slices_both; assumption|]. split; [intros y; apply slice_interior; assumption|intros _; exact O].
  - exists 0, 0. assert (NR : forall e, In e (edges_of P) -> ~ rightward x e).
    { intros e He R. destruct (proj1 (both_ways P C x F) (ex_intro _ e (conj He R))) as (d & Hd & Ld). exact (N d Hd Ld). }
    split; [lra|]. split; [|split].
    + rewrite Rminus_diag_eq by reflexivity. unfold slices. apply sum_zero. intros e He. apply side_none; [apply N; exact He|apply NR; exact He].
    + intros y. split; [|lra]. intros I. exfalso. destruct (interior_crossed P C x y F I) as (e & He & Le). exact (N e He Le).
    + intros (e & He & [L|R]); exfalso; [exact (N e He L)|exact (NR e He R)].
Qed.
End Slices.

(** Potentials of convex electrodes. *)
From Coquelicot Require Import Coquelicot.
From Verif Require Import Base ModelExpr ModelField SpecField SpecPoly SpecMax ProofField ProofDeriv ProofPoly ProofPoly2 ProofMax ProofMax2 ProofMax3 ProofMax4 ProofMax5.
Open Scope R_scope.
Notation length := List.length.

(** ** moved polygons *)
Lemma left_shift a b u v p : left_of (shift2 a b u) (shift2 a b v) (shift2 a b p) = left_of u v p.
Proof. unfold left_of, shift2. cbn [fst snd]. ring. Qed.
Lemma shift_inj a b u v : shift2 a b u = shift2 a b v -> u = v.
Proof. destruct u as [u1 u2], v as [v1 v2]. unfold shift2. cbn [fst snd]. intros E. injection E. intros E2 E1. f_equal; lra. Qed.
Lemma shift_back a b p : shift2 a b (shift2 (- a) (- b) p) = p.
Proof. destruct p as [x y]. unfold shift2. cbn [fst snd]. f_equal; ring. Qed.
Lemma interior_shift a b P p : P <> [] -> (interior (map (shift2 a b) P) (shift2 a b p) <-> interior P p).
Proof.
  intros N. unfold interior. rewrite edges_map by exact N. split; intros H e He.
  - specialize (H _ (in_map (fun e => (shift2 a b (fst e), shift2 a b (snd e))) _ _ He)). cbn [fst snd] in H. rewrite left_shift in H. exact H.
  - apply in_map_iff in He. destruct He as (d & <- & Hd). cbn [fst snd]. rewrite left_shift. apply H. exact Hd.
Qed.
Lemma convex_shift a b P : convex P -> convex (map (shift2 a b) P).
Proof.
  intros C. pose proof (cv_ne P C) as N. destruct C as [D [L K]]. split; [|split].
  - apply FinFun.Injective_map_NoDup; [|exact D]. intros u v. apply shift_inj.
  - rewrite map_length. exact L.
  - intros e v He Hv. rewrite edges_map in He by exact N. apply in_map_iff in He. destruct He as (d & <- & Hd). apply in_map_iff in Hv. destruct Hv as (w & <- & Hw). cbn [fst snd]. rewrite left_shift.
    destruct (K d w Hd Hw) as [E|[E|E]]; [left; rewrite E; reflexivity|right; left; rewrite E; reflexivity|right; right; exact E].
Qed.
Lemma disjoint_shift a b Ps : (forall P, In P Ps -> convex P) -> ForallOrdPairs disjoint Ps -> ForallOrdPairs disjoint (map (map (shift2 a b)) Ps).
Proof.
  intros C D. induction D as [|P Ps D1 D2 IH]; [constructor|]. cbn [map]. constructor; [|apply IH; intros Q HQ; apply C; right; exact HQ].
  rewrite Forall_forall in *. intros Q' HQ. apply in_map_iff in HQ. destruct HQ as (Q & <- & HQ). intros p I1 I2.
  rewrite <- (shift_back a b p) in I1, I2. apply interior_shift in I1; [|exact (cv_ne P (C P (or_introl eq_refl)))]. apply interior_shift in I2; [|exact (cv_ne Q (C Q (or_intror HQ)))]. exact (D1 Q HQ _ I1 I2).
Qed.
Definition rel (x y : R) (P : list p2) : list p2 := map (shift2 (- x) (- y)) P.
(** ** the potential *)
Lemma polygon_turn paths h x y z : 0 < z -> ~ In [] paths -> value (EPolygon paths 0 h) 0 0 (P3 x y z) = sum_over paths (fun P => turn z (rel x y P)) / (2 * PI).
Proof.
  intros Hz N. rewrite polygon_value by exact N. assert (E : forall P, In P paths -> path_value 0 0 0 h (P3 x y z) P = turn z (rel x y P) / (2 * PI)).
  { intros P HP. assert (NP : P <> []) by (intros ->; contradiction). unfold path_value. change (images 0) with [0%Z]. unfold sum_over at 1. cbn [map sumR]. unfold image. cbn [px py pz]. replace (z + 2 * 0 * h) with z by ring. rewrite Rplus_0_r.
    unfold path_sum, turn, rel. rewrite edges_map by exact NP. unfold sum_over. rewrite map_map.
    generalize (edges_of P). intros l. induction l as [|e l IH]; cbn [map sumR]; [unfold Rdiv; ring|]. rewrite IH. rewrite (edge_rel z Hz). unfold angle2, shift2. cbn [fst snd]. unfold Rminus. field. apply PI_neq0. }
  rewrite (sum_ext paths _ _ E). unfold sum_over. generalize paths. intros l. induction l as [|P l IH]; cbn [map sumR]; [unfold Rdiv; ring|]. rewrite IH. unfold Rdiv. ring.
Qed.
Lemma convex_ne Ps : (forall P, In P Ps -> convex P) -> ~ In [] Ps.
Proof. intros C I. exact (cv_ne [] (C [] I) eq_refl). Qed.
Lemma rel_convex x y Ps : (forall P, In P Ps -> convex P) -> forall P, In P (map (rel x y) Ps) -> convex P.
Proof. intros C P HP. apply in_map_iff in HP. destruct HP as (Q & <- & HQ). apply convex_shift. apply C. exact HQ. Qed.
Lemma sum_map {A B} (f : A -> B) (l : list A) g : sum_over (map f l) g = sum_over l (fun a => g (f a)).
Proof. unfold sum_over. rewrite map_map. reflexivity. Qed.
Lemma sum_pos {A} (l : list A) f : l <> [] -> (forall a, In a l -> 0 < f a) -> 0 < sum_over l f.
Proof.
  intros N H. destruct l as [|a l]; [contradiction|]. clear N. unfold sum_over. cbn [map sumR]. pose proof (H a (or_introl eq_refl)) as H0.
  assert (Q : 0 <= sumR (map f l)). { assert (H1 : forall b, In b l -> 0 < f b) by (intros b Hb; apply H; right; exact Hb). clear -H1. induction l as [|b l IH]; cbn [map sumR]; [lra|]. pose proof (H1 b (or_introl eq_refl)). pose proof (IH (fun c Hc => H1 c (or_intror Hc))). lra. }
  lra.
Qed.
Lemma disjoint_between paths h x y z : (forall P, In P paths -> convex P) -> ForallOrdPairs disjoint paths -> paths <> [] -> 0 < z ->
  0 < value (EPolygon paths 0 h) 0 0 (P3 x y z) < 1.
Proof.
  intros C D N Hz. rewrite polygon_turn by (try exact Hz; exact (convex_ne paths C)).
  assert (L : sum_over paths (fun P => turn z (rel x y P)) < 2 * PI).
  { rewrite <- (sum_map (rel x y) paths (turn z)). apply (family_turn z Hz); [apply rel_convex; exact C|apply disjoint_shift; assumption]. }
  assert (G : 0 < sum_over paths (fun P => turn z (rel x y P))).
  { apply sum_pos; [exact N|]. intros P HP. apply (turn_pos z Hz). apply convex_shift. apply C. exact HP. }
  pose proof PI_RGT_0 as PP. split; [apply Rdiv_lt_0_compat; lra|]. apply (Rmult_lt_reg_r (2 * PI)); [lra|]. unfold Rdiv. rewrite Rmult_assoc, Rinv_l by lra. lra.
Qed.
Lemma one_between path h x y z : convex path -> 0 < z -> 0 < value (EPolygon [path] 0 h) 0 0 (P3 x y z) < 1.
Proof. intros C Hz. apply disjoint_between; [intros P [<-|[]]; exact C|constructor; [constructor|constructor]|discriminate|exact Hz]. Qed.
Lemma one_below path h x y z : convex path -> z < 0 -> - (1) < value (EPolygon [path] 0 h) 0 0 (P3 x y z) < 0.
Proof.
  intros C Hz. pose proof (one_between path h x y (- z) C ltac:(lra)) as B. change (P3 x y (- z)) with (mirror (P3 x y z)) in B.
  rewrite value_mirror in B; [|exact I|intros [E|[]]; exact (cv_ne path C E)]. change (z_order 0 0) with 0%nat in B. cbn [pow] in B. lra.
Qed.
Lemma parts_le paths Q h h' x y z : (forall P, In P paths -> convex P) -> ForallOrdPairs disjoint paths -> convex Q ->
  (forall P p, In P paths -> interior P p -> interior Q p) -> 0 < z -> value (EPolygon paths 0 h) 0 0 (P3 x y z) <= value (EPolygon [Q] 0 h') 0 0 (P3 x y z).
Proof.
  intros C D CQ S Hz. rewrite !polygon_turn by (try exact Hz; try exact (convex_ne paths C); intros [E|[]]; exact (cv_ne Q CQ E)).
  pose proof PI_RGT_0 as PP. apply Rmult_le_compat_r; [left; apply Rinv_0_lt_compat; lra|]. unfold sum_over at 2. cbn [map sumR]. rewrite Rplus_0_r.
  rewrite <- (sum_map (rel x y) paths (turn z)). apply (part_turn z Hz); [apply rel_convex; exact C|apply disjoint_shift; assumption|apply convex_shift; exact CQ|].
  intros P' p HP I. apply in_map_iff in HP. destruct HP as (P & <- & HP). rewrite <- (shift_back (- x) (- y) p) in I |- *. apply interior_shift in I; [|exact (cv_ne P (C P HP))]. apply interior_shift; [exact (cv_ne Q CQ)|]. exact (S P _ HP I).
Qed.
(** ** the Poisson integral *)
Lemma same_interval l u l' u' (K : R -> R) : l <= u -> l' <= u' -> (forall y, l < y < u <-> l' < y < u') -> K u - K l = K u' - K l'.
Proof.
  intros L L' H.
  assert (W : forall a b c d, a < b -> (forall y, a < y < b -> c < y < d) -> c <= a /\ b <= d).
  { intros a b c d AB S. split.
    - destruct (Rle_or_lt c a) as [?|G]; [assumption|]. exfalso. pose proof (Rmin_l c b). pose proof (Rmin_r c b). assert (M : a < Rmin c b) by (apply Rmin_glb_lt; lra). pose proof (S ((a + Rmin c b) / 2) ltac:(lra)). lra.
    - destruct (Rle_or_lt b d) as [?|G]; [assumption|]. exfalso. pose proof (Rmax_l d a). pose proof (Rmax_r d a). assert (M : Rmax d a < b) by (apply Rmax_lub_lt; lra). pose proof (S ((b + Rmax d a) / 2) ltac:(lra)). lra. }
  destruct L as [L| ->]; destruct L' as [L'| ->].
  - destruct (W l u l' u' L (fun y => proj1 (H y))). destruct (W l' u' l u L' (fun y => proj2 (H y))). replace u' with u by lra. replace l' with l by lra. reflexivity.
  - pose proof (proj1 (H ((l + u) / 2)) ltac:(lra)). lra.
  - pose proof (proj2 (H ((l' + u') / 2)) ltac:(lra)). lra.
  - ring.
Qed.
Lemma rint_shift (f : R -> R) a b c v : is_RInt f (a + c) (b + c) v -> is_RInt (fun t => f (t + c)) a b v.
Proof.
  intros I. apply (is_RInt_ext (V := R_NormedModule) (fun t => scal 1 (f (1 * t + c)))).
  - intros t _. unfold scal; cbn; unfold mult; cbn. rewrite Rmult_1_l. rewrite Rmult_1_l. reflexivity.
  - apply (is_RInt_comp_lin (V := R_NormedModule) f 1 c a b v). rewrite !Rmult_1_l. exact I.
Qed.
Lemma poisson_slice x y z u a b : 0 < z -> RInt (poisson (P3 x y z) u) a b = (kern z (u - x) (b - y) - kern z (u - x) (a - y)) / (2 * PI).
Proof.
  intros Hz. apply (is_RInt_unique (V := R_CompleteNormedModule)). pose proof PI_RGT_0 as PP.
  pose proof (rint_shift _ a b (- y) _ (kern_int z Hz (u - x) (a + - y) (b + - y))) as I. apply (is_RInt_scal (V := R_NormedModule) _ _ _ (/ (2 * PI))) in I.
  match type of I with is_RInt ?f _ _ ?v => match goal with |- is_RInt ?g _ _ ?w => replace w with v; [apply (is_RInt_ext (V := R_NormedModule) f g); [|exact I]|] end end.
  - intros t _. unfold scal; cbn; unfold mult; cbn. unfold poisson, rad. cbn [px py pz]. replace ((u - x) * (u - x) + (t + - y) * (t + - y) + z * z) with ((u - x) ^ 2 + (t - y) ^ 2 + z ^ 2) by ring.
    set (r := sqrt _). assert (P : 0 < r). { unfold r. apply sqrt_lt_R0. pose proof (pow2_ge_0 (u - x)). pose proof (pow2_ge_0 (t - y)). pose proof (pow_lt z 2 Hz). lra. }
    match goal with |- ?a = ?b => change (@eq R a b) end. field. split; lra.
  - unfold scal; cbn; unfold mult; cbn. match goal with |- ?a = ?b => change (@eq R a b) end. unfold Rminus, Rdiv. ring.
Qed.
Lemma poisson_int path h x y z A B lo hi : convex path -> 0 < z -> (forall v, In v path -> A < fst v < B) ->
  (forall u, (forall v, In v path -> fst v <> u) -> slice_between path u (lo u) (hi u)) ->
  is_RInt (fun u => RInt (poisson (P3 x y z) u) (lo u) (hi u)) A B (value (EPolygon [path] 0 h) 0 0 (P3 x y z)).
Proof.
  intros C Hz Bd S. pose proof (cv_ne path C) as N. pose proof PI_RGT_0 as PP. pose proof (convex_shift (- x) (- y) path C) as C'. fold (rel x y path) in C'.
  assert (AB : A <= B) by (destruct path as [|v l]; [contradiction|]; specialize (Bd v (or_introl eq_refl)); lra).
  rewrite polygon_turn by (try exact Hz; intros [E|[]]; exact (N E)). unfold sum_over. cbn [map sumR]. rewrite Rplus_0_r.
  assert (I : is_RInt (slices z (rel x y path)) (A + - x) (B + - x) (turn z (rel x y path))).
  { apply slices_int; [exact Hz|exact (cv_ne _ C')|]. intros w Hw. apply in_map_iff in Hw. destruct Hw as (v & <- & Hv). specialize (Bd v Hv). unfold shift2. cbn [fst]. lra. }
  apply rint_shift in I. apply (is_RInt_scal (V := R_NormedModule) _ _ _ (/ (2 * PI))) in I.
  match type of I with is_RInt ?f _ _ ?v => match goal with |- is_RInt ?g _ _ ?w => replace w with v; [apply (rint_points (map fst path) f g A B v AB); [|exact I]|] end end.
  - intros u Hu NI. rewrite poisson_slice by exact Hz. assert (F : forall v, In v path -> fst v <> u) by (intros v Hv E; apply NI; rewrite <- E; apply in_map; exact Hv).
    destruct (S u F) as [LH IH].
    assert (F' : free (u + - x) (rel x y path)). { intros w Hw. apply in_map_iff in Hw. destruct Hw as (v & <- & Hv). unfold shift2. cbn [fst]. intros E. apply (F v Hv). lra. }
    destruct (slice_is z (rel x y path) (u + - x) C' F') as (l & r & L & -> & IR & _).
    assert (Q : kern z (u + - x) r - kern z (u + - x) l = kern z (u + - x) (hi u - y) - kern z (u + - x) (lo u - y)).
    { apply (same_interval l r (lo u - y) (hi u - y) (kern z (u + - x)) L); [lra|]. intros w. rewrite <- IR. pose proof (interior_shift (- x) (- y) path (u, w + y) N) as IS. unfold shift2 in IS at 2. cbn [fst snd] in IS. replace (w + y + - y) with w in IS by ring.
      unfold rel. rewrite IS, IH. lra. }
    rewrite Q. unfold scal; cbn; unfold mult; cbn. match goal with |- ?a = ?b => change (@eq R a b) end. unfold Rminus, Rdiv. ring.
  - unfold scal; cbn; unfold mult; cbn. match goal with |- ?a = ?b => change (@eq R a b) end. unfold Rdiv. ring.
Qed.
Lemma slices_exist path : convex path -> exists lo hi, forall u, (forall v, In v path -> fst v <> u) -> slice_between path u (lo u) (hi u).
Proof.
  intros C.
  assert (X : forall u, {lh : R * R | (forall v, In v path -> fst v <> u) -> slice_between path u (fst lh) (snd lh)}).
  { intros u. set (fl := fun e : p2 * p2 => if Rlt_dec (fst (snd e)) u then if Rlt_dec u (fst (fst e)) then true else false else false). set (fr := fun e : p2 * p2 => if Rlt_dec (fst (fst e)) u then if Rlt_dec u (fst (snd e)) then true else false else false).
    destruct (find fl (edges_of path)) as [up|] eqn:EU.
    - destruct (find fr (edges_of path)) as [lo|] eqn:EL.
      + exists (height lo u, height up u). intros F. apply find_some in EU. apply find_some in EL. destruct EU as [Hu Lu]. destruct EL as [Hl Rl]. unfold fl in Lu. unfold fr in Rl.
        repeat match goal with H : context [Rlt_dec ?a ?b] |- _ => destruct (Rlt_dec a b); try discriminate H end. cbn [fst snd].
        assert (R1 : rightward u lo) by (split; assumption). assert (L1 : leftward u up) by (split; assumption). split; [left; exact (slice_order path C lo up u Hl Hu R1 L1)|]. intros w. apply slice_interior; assumption.
      + exists (0, 0). intros F. exfalso. pose proof (find_none _ _ EL) as NL. apply find_some in EU. destruct EU as [Hu Lu]. unfold fl in Lu. destruct (Rlt_dec (fst (snd up)) u) as [A1|A1]; [|discriminate]. destruct (Rlt_dec u (fst (fst up))) as [A2|A2]; [|discriminate].
        destruct (proj2 (both_ways path C u F) (ex_intro _ up (conj Hu (conj A1 A2)))) as (lo & Hl & [R1 R2]). specialize (NL lo Hl). unfold fr in NL. destruct (Rlt_dec (fst (fst lo)) u); [|contradiction]. destruct (Rlt_dec u (fst (snd lo))); [discriminate|contradiction].
    - exists (0, 0). intros F. split; [cbn; lra|]. intros w. split; [|cbn; lra]. intros Iw. exfalso. destruct (interior_crossed path C u w F Iw) as (e & He & [L1 L2]). pose proof (find_none _ _ EU e He) as NL. unfold fl in NL. destruct (Rlt_dec (fst (snd e)) u); [|contradiction]. destruct (Rlt_dec u (fst (fst e))); [discriminate|contradiction]. }
  exists (fun u => fst (proj1_sig (X u))), (fun u => snd (proj1_sig (X u))). intros u F. exact (proj2_sig (X u) F).
Qed.
(** ** systems *)
Lemma sum_flat {A B} (f : A -> list B) (l : list A) g : sum_over (flat_map f l) g = sum_over l (fun a => sum_over (f a) g).
Proof.
  induction l as [|a l IH]; [reflexivity|]. cbn [flat_map]. unfold sum_over in *. rewrite map_app. cbn [map sumR]. rewrite <- IH. generalize (map g (f a)) (map g (flat_map f l)). intros u v. induction u as [|x u IHu]; cbn [app sumR]; [ring|rewrite IHu; ring].
Qed.
Lemma weighted {A} (l : list A) w V m M : m <= 0 <= M -> (forall a, In a l -> m <= w a <= M /\ 0 <= V a) -> m * sum_over l V <= sum_over l (fun a => w a * V a) <= M * sum_over l V.
Proof.
  intros mM H. unfold sum_over. induction l as [|a l IH]; cbn [map sumR]; [lra|]. destruct (IH (fun b Hb => H b (or_intror Hb))) as [I1 I2]. destruct (H a (or_introl eq_refl)) as [[W1 W2] V0].
  pose proof (Rmult_le_compat_r _ _ _ V0 W1). pose proof (Rmult_le_compat_r _ _ _ V0 W2). lra.
Qed.
Lemma sum_nonneg {A} (l : list A) f : (forall a, In a l -> 0 <= f a) -> 0 <= sum_over l f.
Proof. intros H. unfold sum_over. induction l as [|a l IH]; cbn [map sumR]; [lra|]. pose proof (H a (or_introl eq_refl)). pose proof (IH (fun b Hb => H b (or_intror Hb))). lra. Qed.
Lemma system_range s t patches x y z m M : convex_system s patches -> 0 < z -> m <= 0 <= M -> (forall e v, In e s -> volt t e = Some v -> m <= v <= M) ->
  exists v, electrical_potential s [P3 x y z] 0 t = Ok [[v]] /\ m <= v <= M /\ (0 < M -> v < M) /\ (m < 0 -> m < v).
Proof.
  intros (G & C & D) Hz mM Hv.
  assert (CE : forall e P, In e s -> In P (patches e) -> convex P) by (intros e P He HP; apply C; apply in_flat_map; exists e; split; assumption).
  assert (W : forall e, In e s -> well_formed (egeom e)).
  { intros e He. destruct (G e He) as [h ->]. cbn. apply convex_ne. intros P HP. exact (CE e P He HP). }
  exists (sys_term s t 0%nat 0%nat (P3 x y z)). split; [rewrite electrical_one by exact W; reflexivity|].
  set (V := fun e => sum_over (patches e) (fun P => turn z (rel x y P)) / (2 * PI)). pose proof PI_RGT_0 as PP.
  assert (E : sys_term s t 0%nat 0%nat (P3 x y z) = sum_over s (fun e => volt_of t e * V e)).
  { unfold sys_term. apply sum_ext. intros e He. f_equal. pose proof (W e He) as We. destruct (G e He) as [h Eh]. rewrite Eh in *. rewrite <- (value_unit (EPolygon (patches e) 0 h)) by exact We. apply polygon_turn; [exact Hz|exact We]. }
  assert (V0 : forall e, In e s -> 0 <= V e).
  { intros e He. unfold V. apply Rmult_le_pos; [|left; apply Rinv_0_lt_compat; lra]. apply sum_nonneg. intros P HP. left. apply (turn_pos z Hz). apply convex_shift. exact (CE e P He HP). }
  assert (S1 : sum_over s V < 1).
  { assert (Q : sum_over s V = sum_over (flat_map patches s) (fun P => turn z (rel x y P)) / (2 * PI)).
    { rewrite sum_flat. unfold V, sum_over. generalize s. intros l. induction l as [|e l IH]; cbn [map sumR]; [unfold Rdiv; ring|]. rewrite IH. unfold Rdiv. ring. }
    rewrite Q. assert (L : sum_over (flat_map patches s) (fun P => turn z (rel x y P)) < 2 * PI).
    { rewrite <- (sum_map (rel x y) (flat_map patches s) (turn z)). apply (family_turn z Hz); [apply rel_convex; exact C|apply disjoint_shift; assumption]. }
    apply (Rmult_lt_reg_r (2 * PI)); [lra|]. unfold Rdiv. rewrite Rmult_assoc, Rinv_l by lra. lra. }
  pose proof (sum_nonneg s V V0) as S0.
  assert (B : forall e, In e s -> m <= volt_of t e <= M /\ 0 <= V e).
  { intros e He. split; [|exact (V0 e He)]. pose proof (fun v => Hv e v He) as He'. unfold volt, volt_of in *. destruct t; [apply He'; reflexivity|apply He'; reflexivity|lra]. }
  destruct (weighted s (volt_of t) V m M mM B) as [L U]. rewrite E.
  pose proof (Rmult_le_compat_l M _ _ (proj2 mM) (Rlt_le _ _ S1)) as U1. pose proof (Rmult_le_compat_l (- m) _ _ ltac:(lra) (Rlt_le _ _ S1)) as L1.
  split; [lra|]. split.
  - intros MP. pose proof (Rmult_lt_compat_l M _ _ MP S1). lra.
  - intros MP. pose proof (Rmult_lt_compat_l (- m) _ _ ltac:(lra) S1). lra.
Qed.

(** Proof of C184: the rounding error of the derivatives of the potential of a system with images in the cover. *)
From Flocq Require Import Core.
From Verif Require Import Base ModelExpr ModelField ModelFloat ModelFloatExpr ModelFloatField SpecFloat SpecFloat2 SpecFloat3 SpecFloat5
  ProofFloat ProofFloat2 ProofFloat3 ProofFloat4 ProofFloat5 ProofFloat6 ProofFloat7 ProofFloat8 ProofFloat9 ProofFloat10 ProofFloat12.
Import ListNotations.
Open Scope R_scope.

(** sums in another order *)
Lemma total_cons a l : total (a :: l) = a + total l. Proof. reflexivity. Qed.
Lemma total_flat {X} (f g : X -> list R) l : total (flat_map (fun x => f x ++ g x) l) = total (flat_map f l) + total (flat_map g l).
Proof.
  induction l as [|x l IH]; cbn [flat_map]; [cbn; ring|]. rewrite !total_app, IH. ring.
Qed.
Lemma flat_nil {X Y} (l : list X) : flat_map (fun _ => @nil Y) l = [].
Proof. induction l; [reflexivity|assumption]. Qed.
Lemma flat_one {X Y} (f : X -> Y) l : flat_map (fun x => [f x]) l = map f l.
Proof. induction l as [|x l IH]; [reflexivity|]. cbn. rewrite IH. reflexivity. Qed.
Lemma len_app_flat {X} (f g : X -> list R) l :
  length (flat_map (fun x => f x ++ g x) l) = (length (flat_map f l) + length (flat_map g l))%nat.
Proof. induction l as [|x l IH]; cbn [flat_map]; [reflexivity|]. rewrite !app_length, IH. lia. Qed.
Lemma swap_flat {X Y} (f : X -> Y -> list R) (l : list X) (m : list Y) :
  total (flat_map (fun x => flat_map (f x) m) l) = total (flat_map (fun y => flat_map (fun x => f x y) l) m) /\
  length (flat_map (fun x => flat_map (f x) m) l) = length (flat_map (fun y => flat_map (fun x => f x y) l) m).
Proof.
  induction l as [|x l [I1 I2]]; cbn [flat_map]; [rewrite flat_nil; auto|].
  rewrite total_app, app_length, (total_flat (f x)), (len_app_flat (f x)), I1, I2. auto.
Qed.

Section sys.
Variables (pw : R -> nat -> R) (at2 : R -> R -> R) (p : R).
Hypotheses (Hw : good_pow pw) (Hpi : good_pi p).
Let A := b64x pw at2 p.
Variables (d i : nat).
Hypotheses (Hd : (1 <= d <= 5)%nat) (Hi : (i < 2 * d + 1)%nat).
Let fits (st : stmt) (m : R) : Prop :=
  forall v, bounded (image_roundings d) (feval A v (se st)) (feval exact v (se st)) (Rabs v * m).
Let fit (l : list stmt) (m : list R) : Prop :=
  exists m', Forall2 fits l m' /\ total m' = total m /\ length m' = length m.

Lemma fit_app l1 m1 l2 m2 : fit l1 m1 -> fit l2 m2 -> fit (l1 ++ l2) (m1 ++ m2).
Proof.
  intros (a & A1 & A2 & A3) (b & B1 & B2 & B3). exists (a ++ b). split; [apply Forall2_app; assumption|].
  rewrite !total_app, !app_length. split; [congruence|lia].
Qed.
Lemma fit_flat {X} (f : X -> list stmt) (g : X -> list R) l : (forall x, In x l -> fit (f x) (g x)) -> fit (flat_map f l) (flat_map g l).
Proof.
  induction l as [|x l IH]; intros H; cbn [flat_map].
  - exists []. repeat split. constructor.
  - apply fit_app; [apply H; left; reflexivity|apply IH]. intros y Hy. apply H. right; exact Hy.
Qed.
Lemma fit_swap {X Y} l (f : X -> Y -> list R) (lx : list X) (ly : list Y) :
  fit l (flat_map (fun x => flat_map (f x) ly) lx) -> fit l (flat_map (fun y => flat_map (fun x => f x y) lx) ly).
Proof.
  intros (m & M1 & M2 & M3). destruct (swap_flat f lx ly) as [S1 S2]. exists m. split; [exact M1|]. split; congruence.
Qed.
Lemma fit_eq l m : Forall2 fits l m -> fit l m.
Proof. intros H. exists m. auto. Qed.

(** an image point is off the plane, and its height is computed well *)
Let img (x : p3) (k : Z) (h : R) : p3 := P3 (px x) (py x) (pz x + 2 * IZR k * h).
Lemma image_height x n h k : 0 < pz x -> n = 0%Z \/ pz x <= h -> In k (images n) ->
  0 < Rabs (pz (img x k h)) /\
  (forall v, feval exact v (fx_z x k h) = pz (img x k h)) /\
  (forall v, near 4 (feval A v (fx_z x k h)) (pz (img x k h))).
Proof.
  intros Hz Hn Hk. cbn [img pz].
  assert (K0 : k = 0%Z \/ pz x <= h).
  { destruct Hn as [->|]; [left|auto]. change (images 0) with [0%Z] in Hk. destruct Hk as [<-|[]]. reflexivity. }
  split; [|split].
  - apply Rabs_pos_lt. destruct (Z.eq_dec k 0) as [->|K]; [lra|]. destruct K0 as [|K0]; [contradiction|].
    destruct (Z_lt_le_dec 0 k) as [P|P].
    + apply IZR_lt in P. assert (0 <= 2 * IZR k * h) by (apply Rmult_le_pos; lra). lra.
    + assert (P1 : (k <= -1)%Z) by lia. apply IZR_le in P1. assert (2 * IZR k * h <= -2 * h) by (apply Rmult_le_compat_r; lra). lra.
  - intros v. apply z_exact.
  - intros v. apply (height_near pw at2 p). destruct K0 as [->|K0]; [left; reflexivity|right; lra].
Qed.

Lemma pt_len x y z r a : length (point_fx d x y z r a) = (2 * d + 1)%nat.
Proof. clear -Hd. destruct d as [|[|[|[|[|[|d']]]]]]; try lia; reflexivity. Qed.
Lemma ed_len x1 x2 y1 y2 r1 r2 l2 z a : length (edge_fx d x1 x2 y1 y2 r1 r2 l2 z a) = (2 * d + 1)%nat.
Proof. clear -Hd. destruct d as [|[|[|[|[|[|d']]]]]]; try lia; reflexivity. Qed.
Lemma none_row j j' l : length l = (2 * d + 1)%nat -> j' <> j -> filter (hits j i) (on_row j' l) = [].
Proof. intros L N. rewrite hits_on_row by (rewrite L; exact Hi). apply Nat.eqb_neq in N. rewrite N. reflexivity. Qed.
Lemma one_row j l m : length l = (2 * d + 1)%nat ->
  (forall v e, In e l -> bounded (image_roundings d) (feval A v e) (feval exact v e) (Rabs v * m)) ->
  Forall2 fits (filter (hits j i) (on_row j l)) [m].
Proof.
  intros L H. rewrite hits_on_row by (rewrite L; exact Hi). rewrite Nat.eqb_refl. constructor; [|constructor].
  intros v. cbn [se]. apply H, nth_In. rewrite L. exact Hi.
Qed.
Lemma none_images {X} j j' (f : X -> list stmt) l : j' <> j -> (forall k, filter (hits j i) (f k) = []) ->
  flat_map (fun k => filter (hits j i) (f k)) l = [].
Proof. intros N H. rewrite (flat_map_ext _ (fun _ => [])) by apply H. apply flat_nil. Qed.

Lemma image_point xs pixels n h j : (j < length xs)%nat -> 0 < pz (at_ xs j) -> n = 0%Z \/ pz (at_ xs j) <= h ->
  fit (filter (hits j i) (point_stmts xs pixels d n h)) (image_slopes d i (at_ xs j) (EPoint pixels n h)).
Proof.
  intros Hj Hz Hn. unfold image_slopes. cbn [seen_from slopes]. rewrite flat_map_concat_map, map_map, <- flat_map_concat_map.
  set (x := at_ xs j) in *.
  rewrite (flat_map_ext _ (fun k => flat_map (fun pa : p2 * R =>
    [amp d * (Rabs (snd pa) / (2 * PI * dist (img x k h) (fst pa) ^ (d + 2)))]) pixels)) by (intros k; symmetry; apply flat_one).
  apply (fit_swap _ (fun (pa : p2 * R) k => [amp d * (Rabs (snd pa) / (2 * PI * dist (img x k h) (fst pa) ^ (d + 2)))])).
  unfold point_stmts. rewrite filter_flat. apply fit_flat. intros [q c] _. cbn [fst snd]. cbv zeta. rewrite filter_flat.
  rewrite (flat_row _ (fun j' => flat_map (fun k => filter (hits j i) (on_row j' (point_fx d (fx_x (at_ xs j') q) (fx_y (at_ xs j') q) (fx_z (at_ xs j') k h)
    (fx_r (fx_x (at_ xs j') q) (fx_y (at_ xs j') q) (fx_z (at_ xs j') k h)) (Mul (Num c) Volt)))) (images n)) j _ Hj).
  - apply fit_flat. intros k Hk. fold x. apply fit_eq, one_row; [apply pt_len|]. intros v e He.
    destruct (image_height x n h k Hz Hn Hk) as (H1 & H2 & H3).
    apply (image_pixel pw at2 p Hw Hpi d v (img x k h) (fx_z x k h) q c Hd H1 (H2 v) (H3 v) e He).
  - intros j'. rewrite filter_flat. destruct (Nat.eqb_spec j' j) as [->|N]; [reflexivity|].
    apply (none_images j j'); [exact N|]. intros k. apply none_row; [apply pt_len|exact N].
Qed.

Lemma vert_none x z j j' vs : j' <> j -> forall x2 y2 r2, filter (hits j i) (vertex_stmts x z d j' vs x2 y2 r2) = [].
Proof.
  intros N. induction vs as [|w vs IH]; intros x2 y2 r2; cbn [vertex_stmts]; [reflexivity|].
  cbv zeta. rewrite filter_app, IH, app_nil_r. apply none_row; [apply ed_len|exact N].
Qed.
Lemma vert_slope x y (z : fx) j vs : px y = px x -> py y = py x -> 0 < Rabs (pz y) ->
  (forall v, feval exact v z = pz y) -> (forall v, near 4 (feval A v z) (pz y)) ->
  forall q, Forall (clear_of y) (combine (q :: vs) vs) ->
  Forall2 fits (filter (hits j i) (vertex_stmts x z d j vs (fx_x x q) (fx_y x q) (fx_r (fx_x x q) (fx_y x q) z)))
    (map (fun vw => side_slope d y (fst vw) (snd vw)) (combine (q :: vs) vs)).
Proof.
  intros EX EY H1 H2 H3.
  assert (FX : forall q, fx_x x q = fx_x y q) by (intros q; unfold fx_x; rewrite EX; reflexivity).
  assert (FY : forall q, fx_y x q = fx_y y q) by (intros q; unfold fx_y; rewrite EY; reflexivity).
  induction vs as [|w vs IH]; intros q Hcl; [constructor|].
  cbn [combine] in Hcl. inversion Hcl as [|? ? C1 C2]; subst.
  cbn [vertex_stmts combine map]. cbv zeta. rewrite filter_app.
  change (side_slope d y (fst (q, w)) (snd (q, w)) :: ?l) with ([side_slope d y q w] ++ l).
  apply Forall2_app; [|apply IH, C2].
  replace (side_slope d y q w) with (Rabs 1 * side_slope d y q w) by (rewrite Rabs_R1; ring).
  apply one_row; [apply ed_len|]. intros v e He. rewrite !FX, !FY in He.
  apply (image_edge pw at2 p Hw Hpi d v y z q w Volt 1 Hd H1 (H2 v) (H3 v) C1 (or_introl (conj eq_refl eq_refl)) e He).
Qed.
Lemma image_polygon xs paths n h j : (j < length xs)%nat -> 0 < pz (at_ xs j) -> n = 0%Z \/ pz (at_ xs j) <= h ->
  Forall (fun y => Forall (clear_of y) (flat_map sides paths)) (seen_from (at_ xs j) (EPolygon paths n h)) ->
  fit (filter (hits j i) (flat_map (fun q => polygon_stmts xs q d n h) paths)) (image_slopes d i (at_ xs j) (EPolygon paths n h)).
Proof.
  intros Hj Hz Hn. unfold image_slopes. cbn [seen_from slopes]. rewrite (flat_map_concat_map _ (map _ _)), map_map, <- flat_map_concat_map.
  set (x := at_ xs j) in *. intros Hcl. rewrite Forall_map, Forall_forall in Hcl. fold (img x) in *.
  apply (fit_swap _ (fun q k => map (fun vw => side_slope d (img x k h) (fst vw) (snd vw)) (sides q))).
  rewrite filter_flat. apply fit_flat. intros q Hq. unfold polygon_stmts. rewrite filter_flat.
  rewrite (flat_row _ (fun j' => let x := at_ xs j' in let v := last q (0, 0) in
    flat_map (fun k => filter (hits j i) (vertex_stmts x (fx_z x k h) d j' q (fx_x x v) (fx_y x v) (fx_r (fx_x x v) (fx_y x v) (fx_z x k h)))) (images n)) j _ Hj).
  - cbv zeta. apply fit_flat. intros k Hk. fold x. destruct (image_height x n h k Hz Hn Hk) as (H1 & H2 & H3).
    apply fit_eq. apply vert_slope; [reflexivity|reflexivity|exact H1|exact H2|exact H3|].
    specialize (Hcl k Hk). rewrite Forall_forall in Hcl. apply Forall_forall. intros vw Hvw. apply Hcl, in_flat_map. exists q. split; [exact Hq|exact Hvw].
  - intros j'. cbv zeta. rewrite filter_flat. destruct (Nat.eqb_spec j' j) as [->|N]; [reflexivity|].
    apply (none_images j j'); [exact N|]. intros k. apply vert_none, N.
Qed.
Lemma image_mesh xs points edges pots n h j : (j < length xs)%nat -> 0 < pz (at_ xs j) -> n = 0%Z \/ pz (at_ xs j) <= h ->
  Forall (fun y => Forall (clear_of y) (sides_of (EMesh points edges pots n h))) (seen_from (at_ xs j) (EMesh points edges pots n h)) ->
  fit (filter (hits j i) (mesh_stmts xs points edges pots d n h)) (image_slopes d i (at_ xs j) (EMesh points edges pots n h)).
Proof.
  intros Hj Hz Hn. unfold image_slopes. cbn [seen_from slopes sides_of]. rewrite (flat_map_concat_map _ (map _ _)), map_map, <- flat_map_concat_map.
  set (x := at_ xs j) in *. intros Hcl. rewrite Forall_map, Forall_forall in Hcl.
  pose (F := fun (e : (nat * nat) * nat) k => [Rabs (nth (snd e) pots 0) *
    side_slope d (img x k h) (nth (fst (fst e)) points (0, 0)) (nth (snd (fst e)) points (0, 0))]).
  rewrite (flat_map_ext _ (fun k => flat_map (fun e => F e k) edges)) by (intros k; symmetry; apply flat_one).
  apply fit_swap. unfold mesh_stmts. rewrite filter_flat. apply fit_flat. intros e He. cbv zeta. rewrite filter_flat.
  set (v1 := nth (fst (fst e)) points (0, 0)). set (v2 := nth (snd (fst e)) points (0, 0)). set (c := nth (snd e) pots 0).
  rewrite (flat_row _ (fun j' => let x := at_ xs j' in flat_map (fun k => let z := fx_z x k h in
    filter (hits j i) (on_row j' (edge_fx d (fx_x x v1) (fx_x x v2) (fx_y x v1) (fx_y x v2)
      (fx_r (fx_x x v1) (fx_y x v1) z) (fx_r (fx_x x v2) (fx_y x v2) z)
      (fx_l2 (fx_x x v1) (fx_x x v2) (fx_y x v1) (fx_y x v2)) z (Mul (Num c) Volt)))) (images n)) j _ Hj).
  - cbv zeta. apply fit_flat. intros k Hk. fold x. destruct (image_height x n h k Hz Hn Hk) as (H1 & H2 & H3).
    apply fit_eq, one_row; [apply ed_len|]. intros v t Ht.
    specialize (Hcl k Hk). rewrite Forall_map, Forall_forall in Hcl. specialize (Hcl e He).
    apply (image_edge pw at2 p Hw Hpi d v (img x k h) (fx_z x k h) v1 v2 (Mul (Num c) Volt) c Hd H1 (H2 v) (H3 v) Hcl (or_intror eq_refl) t Ht).
  - intros j'. cbv zeta. rewrite filter_flat. destruct (Nat.eqb_spec j' j) as [->|N]; [reflexivity|].
    apply (none_images j j'); [exact N|]. intros k. apply none_row; [apply ed_len|exact N].
Qed.
Lemma cls_image j k e m n : (n <= 67)%nat -> cls e = Some n -> (forall v, Rabs (feval exact v e) = Rabs v * m) ->
  fits (Stmt j k e) m.
Proof.
  intros Hk C V v. cbn [se]. assert (67 <= image_roundings d)%nat by (clear -Hd; destruct d as [|[|[|[|[|[|d']]]]]]; cbn; lia).
  apply (bounded_weak n); [lia|]. rewrite <- V.
  split; [|apply Rle_refl]. apply near_abs, cls_near; [apply rnd_A|apply (pow_A pw at2 p Hw)|apply (pi_A pw at2 p Hpi)|exact C].
Qed.
Lemma image_cover xs h j : (j < length xs)%nat ->
  Forall2 fits (filter (hits j i) (cover_stmts xs h d)) (slopes d i (at_ xs j) (ECover h)).
Proof.
  intros Hj. destruct (Nat.eq_dec d 1) as [E|E].
  2:{ assert (E1 : cover_stmts xs h d = []) by (destruct d as [|[|d']]; [lia|lia|reflexivity]).
      assert (E2 : slopes d i (at_ xs j) (ECover h) = []) by (cbn [slopes]; apply Nat.eqb_neq in E; rewrite E; reflexivity).
      rewrite E1, E2. constructor. }
  rewrite E. cbn [cover_stmts slopes Nat.eqb andb]. rewrite map_flat, filter_flat.
  rewrite (flat_row _ (fun j' => if (i =? 2)%nat then [Stmt j' 2 (Volt / Num h)%fx] else []) j _ Hj).
  - destruct (i =? 2)%nat; constructor; [|constructor]. apply (cls_image j 2 _ _ 1); [lia|reflexivity|].
    intros v. cbn [feval exact rnd]. rewrite <- Rabs_mult. f_equal. unfold Rdiv. ring.
  - intros j'. cbn [filter]. unfold hits; cbn [sj si]. rewrite (Nat.eqb_sym 2 i).
    destruct (j' =? j)%nat; destruct (i =? 2)%nat; reflexivity.
Qed.
Lemma image_other xs u j : (j < length xs)%nat ->
  Forall2 fits (filter (hits j i) (other_stmts xs (u d))) (slopes d i (at_ xs j) (EOther u)).
Proof.
  intros Hj. unfold other_stmts. cbn [slopes]. rewrite filter_flat.
  rewrite (flat_row _ (fun j' => match nth_error (u d (at_ xs j')) i with Some c => [Stmt j' i (Volt * Num c)%fx] | None => [] end) j _ Hj).
  - destruct (nth_error (u d (at_ xs j)) i) as [c|]; constructor; [|constructor].
    apply (cls_image j i _ _ 1); [lia|reflexivity|]. intros v. cbn [feval exact rnd]. apply Rabs_mult.
  - intros j'. set (l := u d (at_ xs j')).
    destruct (nth_error l i) as [c|] eqn:E.
    + assert (Hl : (i < length l)%nat) by (apply nth_error_Some; rewrite E; discriminate).
      rewrite hits_on_row by (rewrite map_length; exact Hl). destruct (Nat.eqb_spec j' j) as [->|]; [|reflexivity].
      f_equal. f_equal. apply nth_error_nth. rewrite nth_error_map, E. reflexivity.
    + apply nth_error_None in E.
      replace (if (j' =? j)%nat then [] else []) with (@nil stmt) by (destruct (j' =? j)%nat; reflexivity).
      unfold on_row. set (m := map _ l). assert (Lm : (length m <= i)%nat) by (unfold m; rewrite map_length; exact E). clearbody m.
      destruct (filter _ _) as [|st r] eqn:F; [reflexivity|].
      assert (In st (filter (hits j i) (map (fun ie : nat * fx => Stmt j' (fst ie) (snd ie)) (combine (seq 0 (length m)) m)))) as Hin by (rewrite F; left; reflexivity).
      apply filter_In in Hin as [Hin Hh]. apply in_map_iff in Hin as ([k e] & <- & Hk). apply in_combine_l, in_seq in Hk.
      unfold hits in Hh. cbn [sj si fst snd] in Hh. apply andb_prop in Hh as [_ Hh]. apply Nat.eqb_eq in Hh. lia.
Qed.

Lemma geom_image g xs l j : (j < length xs)%nat -> 0 < pz (at_ xs j) ->
  match g with EPoint _ n h | EPolygon _ n h | EMesh _ _ _ n h => n = 0%Z \/ pz (at_ xs j) <= h | ECover _ | EOther _ => True end ->
  Forall (fun y => Forall (clear_of y) (sides_of g)) (seen_from (at_ xs j) g) ->
  stmts g xs d = Ok l -> fit (filter (hits j i) l) (image_slopes d i (at_ xs j) g).
Proof.
  intros Hj Hz Hn Hcl E. destruct g; cbn [stmts] in E.
  - injection E as <-. apply image_point; assumption.
  - destruct (existsb _ _); [discriminate|]. injection E as <-. apply image_polygon; assumption.
  - destruct (mesh_ok _ _ _); [|discriminate]. injection E as <-. apply image_mesh; assumption.
  - injection E as <-. unfold image_slopes. cbn [seen_from flat_map]. rewrite app_nil_r. apply fit_eq, image_cover; assumption.
  - injection E as <-. unfold image_slopes. cbn [seen_from flat_map]. rewrite app_nil_r. apply fit_eq, image_other; assumption.
Qed.

Lemma system_image s xs t out pot j : (j < length xs)%nat -> 0 < pz (at_ xs j) -> below_cover (at_ xs j) s -> images_clear (at_ xs j) s ->
  fel_loop A s xs d t pot = Ok out ->
  exists ms : list R, Forall2 (fun vs m => bounded (image_roundings d) (feval A (fst vs) (se (snd vs))) (feval exact (fst vs) (se (snd vs))) m)
    (filter (fun vs => hits j i (snd vs)) (trace s xs d t)) ms /\
    total ms = image_total d i t (at_ xs j) s /\ (length ms <= image_count d i (at_ xs j) s)%nat.
Proof.
  intros Hj Hz. revert pot. induction s as [|e s IH]; intros pot Hs Hcl E.
  { exists []. repeat split; [constructor|cbn; lia]. }
  inversion Hs as [|? ? He Hs']; subst. inversion Hcl as [|? ? Ce Cs]; subst. cbn [fel_loop] in E.
  assert (F : forall v l, filter (fun vs : R * stmt => hits j i (snd vs)) (map (pair v) l) = map (pair v) (filter (hits j i) l)).
  { clear. intros v l; induction l as [|a l IH]; [reflexivity|]. cbn. destruct (hits j i a); cbn; rewrite IH; reflexivity. }
  assert (T : image_total d i t (at_ xs j) (e :: s) = Rabs (volts t e) * total (image_slopes d i (at_ xs j) (egeom e)) + image_total d i t (at_ xs j) s) by reflexivity.
  assert (C : image_count d i (at_ xs j) (e :: s) = (length (image_slopes d i (at_ xs j) (egeom e)) + image_count d i (at_ xs j) s)%nat) by reflexivity.
  rewrite T, C. cbn [trace]. unfold volts. destruct (volt t e) as [v|].
  2:{ destruct (IH _ Hs' Cs E) as (ms & F1 & F2 & F3). exists ms. split; [exact F1|]. split; [rewrite F2, Rabs_R0; ring|lia]. }
  destruct (Req_EM_T v 0) as [->|V].
  { destruct (IH _ Hs' Cs E) as (ms & F1 & F2 & F3). exists ms. split; [exact F1|]. split; [rewrite F2, Rabs_R0; ring|lia]. }
  unfold fpotential in E. destruct (stmts (egeom e) xs d) as [l|] eqn:El; [|discriminate]. cbn [bind] in E.
  destruct (IH _ Hs' Cs E) as (ms & F1 & F2 & F3).
  destruct (geom_image _ _ _ _ Hj Hz He Ce El) as (mm & G & G2 & G3).
  exists (map (Rmult (Rabs v)) mm ++ ms). split; [|split].
  - rewrite filter_app, F. apply Forall2_app; [|exact F1]. clear -G.
    induction G as [|st m l1 l2 H _ IH]; [constructor|]. constructor; [|exact IH]. apply H.
  - rewrite total_app, F2. f_equal. rewrite <- G2. clear. induction mm as [|a l IH]; cbn; [ring|].
    fold (total l). fold (total (map (Rmult (Rabs v)) l)). rewrite IH. ring.
  - rewrite app_length, map_length. lia.
Qed.

Lemma image_bounded s xs t out ref j :   felectrical_potential A s xs d t = Ok out -> electrical_potential s xs d t = Ok ref ->
  (j < length xs)%nat -> 0 < pz (at_ xs j) -> below_cover (at_ xs j) s -> images_clear (at_ xs j) s ->
  bounded (image_count d i (at_ xs j) s + image_roundings d) (cell out j i) (cell ref j i) (image_total d i t (at_ xs j) s).
Proof.
  intros E E' Hj Hz Hs Hcl. rewrite <- felectrical_exact in E'.
  destruct (system_image s xs t out _ j Hj Hz Hs Hcl E) as (ms & F & T1 & T2).
  apply loop_trace in E. apply loop_trace in E'.
  destruct (zeros_inside d (length xs) j i Hj Hi) as [Z1 Z2].
  rewrite E, E', (run_cell A _ j i _ Z1), (run_cell exact _ j i _ Z1), Z2.
  rewrite fsum_exact, Rplus_0_l, <- T1.
  set (l := filter _ _) in *. clearbody l.
  pose (g := fun q : (R * stmt) * R => ((feval A (fst (fst q)) (se (snd (fst q))), feval exact (fst (fst q)) (se (snd (fst q)))), snd q)).
  pose (pl := map g (combine l ms)).
  assert (M1 : map (fun p => fst (fst p)) pl = map (fun vs => feval A (fst vs) (se (snd vs))) l /\
    map (fun p => snd (fst p)) pl = map (fun vs => feval exact (fst vs) (se (snd vs))) l /\ map snd pl = ms /\
    (forall q, In q pl -> bounded (image_roundings d) (fst (fst q)) (snd (fst q)) (snd q)) /\ length pl = length ms).
  { unfold pl. clear -F. induction F as [|vs m l ms H F IH]; [do 3 (split; [reflexivity|]); split; [intros q []|reflexivity]|].
    destruct IH as (I1 & I2 & I3 & I4 & I5). cbn [combine map length].
    split; [f_equal; exact I1|]. split; [f_equal; exact I2|]. split; [f_equal; exact I3|].
    split; [|f_equal; exact I5]. intros q [<-|Hq]; [exact H|apply I4, Hq]. }
  destruct M1 as (M1 & M2 & M3 & HP & M5). rewrite <- M1, <- M2, <- M3.
  assert (B0 : bounded (0 + image_roundings d) 0 0 0) by (split; rewrite ?Rminus_0_r, Rabs_R0; lra).
  pose proof (fsum_bounded A (image_roundings d) pl (rnd_A pw at2 p) HP 0 0 0 0 B0) as Q. rewrite !Rplus_0_l in Q.
  apply (bounded_weak _ (image_count d i (at_ xs j) s + image_roundings d)) in Q; [|cbn; lia]. apply Q.
Qed.
Lemma image_slope s xs t out ref j :   felectrical_potential A s xs d t = Ok out -> electrical_potential s xs d t = Ok ref ->
  (j < length xs)%nat -> 0 < pz (at_ xs j) -> below_cover (at_ xs j) s -> images_clear (at_ xs j) s ->
  Rabs (cell out j i - cell ref j i) <=
  gam (image_count d i (at_ xs j) s + image_roundings d) * image_total d i t (at_ xs j) s.
Proof. intros E E' Hj Hz Hs Hcl. exact (proj1 (image_bounded s xs t out ref j E E' Hj Hz Hs Hcl)). Qed.
End sys.
Lemma image_million pw at2 p : good_pow pw -> good_pi p -> forall d i s xs t out ref j, (1 <= d <= 5)%nat -> (i < 2 * d + 1)%nat ->
  felectrical_potential (b64x pw at2 p) s xs d t = Ok out -> electrical_potential s xs d t = Ok ref ->
  (j < length xs)%nat -> 0 < pz (at_ xs j) -> below_cover (at_ xs j) s -> images_clear (at_ xs j) s ->
  (image_count d i (at_ xs j) s <= 10 ^ 6)%nat ->
  Rabs (cell out j i - cell ref j i) <= 3 / 10 ^ 10 * image_total d i t (at_ xs j) s.
Proof.
  intros Hw Hp d i s xs t out ref j Hd Hi E E' Hj Hz Hs Hcl Hn.
  eapply Rle_trans; [apply (image_slope pw at2 p Hw Hp d i Hd Hi s xs t out ref j); assumption|].
  destruct (system_image pw at2 p Hw Hp d i Hd Hi s xs t out _ j Hj Hz Hs Hcl E) as (ms & F & T1 & _).
  assert (T0 : 0 <= image_total d i t (at_ xs j) s).
  { rewrite <- T1. clear -F. induction F as [|vs m l ms [_ H] _ IH]; cbn; [lra|]. fold (total ms).
    pose proof (Rabs_pos (feval exact (fst vs) (se (snd vs)))). lra. }
  apply Rmult_le_compat_r; [exact T0|].
  set (n := (image_count d i (at_ xs j) s + image_roundings d)%nat) in *.
  assert (RD : (image_roundings d <= 371)%nat) by (clear -Hd; destruct d as [|[|[|[|[|[|d]]]]]]; cbn; lia).
  assert (N : INR n <= 1000371).
  { unfold n. rewrite plus_INR. apply le_INR in Hn. rewrite pow_INR in Hn. apply le_INR in RD.
    assert (E10 : INR 10 = 10) by (cbn; lra). assert (E21 : INR 371 = 371) by (rewrite INR_IZR_INZ; reflexivity).
    rewrite E10 in Hn. rewrite E21 in RD. lra. }
  assert (U : u64 <= 1 / 10 ^ 15 * (112 / 1000)).
  { unfold u64. apply Rmult_le_reg_l with (2 ^ 53); [apply pow_lt; lra|]. rewrite Rinv_r by (apply pow_nonzero; lra). lra. }
  pose proof u_pos as U0. pose proof (pos_INR n) as N0.
  assert (B : INR n * u64 <= 1000371 * (1 / 10 ^ 15 * (112 / 1000))) by (apply Rmult_le_compat; lra).
  eapply Rle_trans; [apply gam_linear|]; lra.
Qed.

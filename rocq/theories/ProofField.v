From Coquelicot Require Import Coquelicot.
From Verif Require Import Base ModelExpr ModelUtils ModelField SpecTensor SpecField.
Open Scope R_scope.

(** ** rows *)
Lemma add_into_length r inc : length (add_into r inc) = length r.
Proof. revert inc. induction r as [|a r IH]; intros [|d inc]; cbn; auto. Qed.
Lemma add_into_nth r inc i : (length inc <= length r)%nat ->
  nth i (add_into r inc) 0 = nth i r 0 + nth i inc 0.
Proof.
  revert inc i. induction r as [|a r IH]; intros [|d inc] [|i] H; cbn in *; try lra; try lia.
  apply IH. lia.
Qed.
Lemma fold_add_length incs : forall r, length (fold_left add_into incs r) = length r.
Proof.
  induction incs as [|inc incs IH]; intros r; cbn [fold_left]; [reflexivity|].
  now rewrite IH, add_into_length.
Qed.
Lemma fold_add_nth incs : forall r i, Forall (fun inc => (length inc <= length r)%nat) incs ->
  nth i (fold_left add_into incs r) 0 = nth i r 0 + sum_over incs (fun inc => nth i inc 0).
Proof.
  induction incs as [|inc incs IH]; intros r i H; cbn [fold_left].
  - unfold sum_over. cbn. lra.
  - inversion H; subst. rewrite IH.
    + rewrite add_into_nth by assumption. unfold sum_over. cbn. lra.
    + now rewrite add_into_length.
Qed.

Lemma upd_row_length j f out : length (upd_row j f out) = length out.
Proof. revert j. induction out as [|r out IH]; intros [|j]; cbn; auto. Qed.
Lemma upd_row_nth j f out j' : (j < length out)%nat ->
  nth j' (upd_row j f out) [] = if Nat.eqb j' j then f (nth j out []) else nth j' out [].
Proof.
  revert j j'. induction out as [|r out IH]; intros [|j] [|j'] H; cbn in *; try lia; auto.
  apply IH. lia.
Qed.
Lemma upd_row_nth_out j f out : (length out <= j)%nat -> upd_row j f out = out.
Proof.
  revert j. induction out as [|r out IH]; intros [|j] H; cbn in *; auto; try lia.
  f_equal. apply IH. lia.
Qed.

(** [Acc out F out']: row [j] got the increments [F j] *)
Definition Acc (out : list row) (F : nat -> list row) (out' : list row) : Prop :=
  length out' = length out /\
  forall j, (j < length out)%nat -> nth j out' [] = fold_left add_into (F j) (nth j out []).

Lemma Acc_refl out : Acc out (fun _ => []) out.
Proof. split; auto. Qed.
Lemma Acc_trans a F b G c : Acc a F b -> Acc b G c -> Acc a (fun j => F j ++ G j) c.
Proof.
  intros [L1 H1] [L2 H2]. split; [congruence|]. intros j Hj.
  rewrite H2 by lia. rewrite H1 by lia. now rewrite fold_left_app.
Qed.
Lemma Acc_ext a F G b : (forall j, (j < length a)%nat -> F j = G j) -> Acc a F b -> Acc a G b.
Proof. intros H [L1 H1]. split; auto. intros j Hj. rewrite <- H by auto. auto. Qed.
Lemma Acc_upd j inc out :
  Acc out (fun j' => if Nat.eqb j' j then [inc] else [])
    (upd_row j (fun r => add_into r inc) out).
Proof.
  split; [apply upd_row_length|]. intros j' Hj'.
  destruct (Nat.lt_ge_cases j (length out)) as [H|H].
  - rewrite upd_row_nth by assumption. destruct (Nat.eqb_spec j' j); [subst; reflexivity|reflexivity].
  - rewrite upd_row_nth_out by assumption. destruct (Nat.eqb_spec j' j); [lia|reflexivity].
Qed.
(** a fold of accumulating steps *)
Lemma Acc_fold {A} (step : list row -> A -> list row) (F : A -> nat -> list row) :
  forall l out, (forall a o, In a l -> Acc o (F a) (step o a)) ->
  Acc out (fun j => flat_map (fun a => F a j) l) (fold_left step l out).
Proof.
  induction l as [|a l IH]; intros out H; cbn [fold_left flat_map].
  - apply Acc_refl.
  - eapply Acc_trans; [apply H; now left|]. apply IH. intros b o Hb. apply H. now right.
Qed.
Lemma flat_map_if {A} (j : nat) (f : A -> row) l :
  forall j', flat_map (fun a => if Nat.eqb j' j then [f a] else []) l
  = if Nat.eqb j' j then map f l else [].
Proof.
  intros j'. destruct (Nat.eqb j' j); induction l as [|a l IH]; cbn; auto; now rewrite IH.
Qed.
Lemma flat_map_pick (f : nat -> list row) n j' :
  flat_map (fun j => if Nat.eqb j' j then f j else []) (seq 0 n)
  = if Nat.ltb j' n then f j' else [].
Proof.
  assert (G : forall m, flat_map (fun j => if Nat.eqb j' j then f j else []) (seq m n)
     = if (Nat.leb m j' && Nat.ltb j' (m + n))%bool then f j' else []).
  { induction n as [|n IH]; intros m; cbn [seq flat_map].
    - destruct (Nat.leb_spec m j'), (Nat.ltb_spec j' (m + 0)); cbn; auto; lia.
    - rewrite IH. destruct (Nat.eqb_spec j' m) as [->|Hm].
      + destruct (Nat.leb_spec (S m) m); [lia|]. cbn [andb].
        destruct (Nat.leb_spec m m), (Nat.ltb_spec m (m + S n)); try lia. cbn.
        now rewrite app_nil_r.
      + cbn [app].
        destruct (Nat.leb_spec (S m) j'), (Nat.leb_spec m j'),
          (Nat.ltb_spec j' (S m + n)), (Nat.ltb_spec j' (m + S n)); cbn; auto; lia. }
  rewrite G. reflexivity.
Qed.
(** the point loop *)
Lemma Acc_points (n : nat) (step : list row -> nat -> list row) (F : nat -> list row) out :
  (forall j o, Acc o (fun j' => if Nat.eqb j' j then F j else []) (step o j)) ->
  Acc out (fun j => if Nat.ltb j n then F j else []) (fold_left step (seq 0 n) out).
Proof.
  intros H.
  eapply Acc_ext; [|apply (Acc_fold step (fun j j' => if Nat.eqb j' j then F j else []))].
  - intros j Hj. cbn beta. apply flat_map_pick.
  - intros. apply H.
Qed.
Lemma Acc_images {A} (j : nat) (f : A -> row) l out :
  Acc out (fun j' => if Nat.eqb j' j then map f l else [])
   (fold_left (fun o a => upd_row j (fun r => add_into r (f a)) o) l out).
Proof.
  eapply Acc_ext; [|apply (Acc_fold _ (fun a j' => if Nat.eqb j' j then [f a] else []))].
  - intros j' _. cbn beta. apply flat_map_if.
  - intros a o _. apply Acc_upd.
Qed.

(** ** the increments of each electrode *)
Definition pixel_incs (d : nat) (v : R) (pixels : list (p2 * R)) nmax h (x : p3) : list row :=
  flat_map (fun pa => map (fun k => 
    let q := image h k x in
    point_expr d (px q - fst (fst pa)) (py q - snd (fst pa)) (pz q)
      (dist q (fst pa)) (snd pa * v)) (images nmax)) pixels.
Definition edge_inc (d : nat) (v : R) (q : p3) (v1 v2 : p2) : row :=
  edge_expr d (px q - fst v1) (px q - fst v2) (py q - snd v1) (py q - snd v2)
    (dist q v1) (dist q v2) ((fst v1 - fst v2) ^ 2 + (snd v1 - snd v2) ^ 2) (pz q) v.
Definition path_incs (d : nat) (v : R) (nmax : Z) (h : R) (x : p3) (path : list p2) : list row :=
  flat_map (fun k => map (fun e => edge_inc d v (image h k x) (fst e) (snd e)) (edges_of path))
    (images nmax).
Definition mesh_incs (d : nat) (points : list p2) (pots : list R) (nmax : Z) (h : R)
  (edges : list ((nat * nat) * nat)) (x : p3) : list row :=
  flat_map (fun e => map (fun k => edge_inc d (nth (snd e) pots 0) (image h k x)
     (nth (fst (fst e)) points (0,0)) (nth (snd (fst e)) points (0,0))) (images nmax)) edges.
Definition incs (g : geom) (d : nat) (v : R) (x : p3) : list row :=
  match g with
  | EPoint pixels n h => pixel_incs d v pixels n h x
  | EPolygon paths n h => flat_map (path_incs d v n h x) paths
  | EMesh points edges pots n h => mesh_incs d points (map (fun p => p * v) pots) n h edges x
  | ECover h => [cover_inc h v d x]
  | EOther u => [map (Rmult v) (u d x)]
  end.

Lemma flat_map_ltb {A B} (b : bool) (f : A -> list B) l :
  flat_map (fun a => if b then f a else []) l = if b then flat_map f l else [].
Proof. destruct b; [reflexivity|]. induction l; cbn; auto. Qed.

Lemma point_loop_acc xs pixels v d n h out :
  Acc out (fun j => if Nat.ltb j (length xs) then pixel_incs d v pixels n h (at_ xs j) else [])
    (point_loop xs pixels v d n h out).
Proof.
  unfold point_loop, pixel_incs.
  eapply Acc_ext; [|eapply (Acc_fold _ (fun pa j => if Nat.ltb j (length xs) then
    map (fun k => let q := image h k (at_ xs j) in
      point_expr d (px q - fst (fst pa)) (py q - snd (fst pa)) (pz q)
      (dist q (fst pa)) (snd pa * v)) (images n) else []))].
  - intros j _. cbn beta. now rewrite flat_map_ltb.
  - intros pa o _. apply Acc_points. intros j o'.
    eapply Acc_ext; [|apply Acc_images]. intros j' _. cbn beta.
    destruct (Nat.eqb_spec j' j); reflexivity.
Qed.

(** the running previous vertex *)
Lemma vertex_loop_edges x z v d j : forall vs prev out,
  snd (vertex_loop x z v d j vs
     ((px x - fst prev, py x - snd prev,
       sqrt ((px x - fst prev) ^ 2 + (py x - snd prev) ^ 2 + z ^ 2)), out))
  = fold_left (fun o e => upd_row j (fun r => add_into r
      (edge_inc d v (P3 (px x) (py x) z) (fst e) (snd e))) o)
    (combine (prev :: removelast vs) vs) out.
Proof.
  unfold vertex_loop. induction vs as [|w vs IH]; intros prev out; [reflexivity|].
  cbn [fold_left].
  replace (combine (prev :: removelast (w :: vs)) (w :: vs))
    with ((prev, w) :: combine (w :: removelast vs) vs)
    by (destruct vs; reflexivity).
  cbn [fold_left fst snd]. rewrite IH. f_equal. f_equal.
  unfold edge_inc, dist. cbn [px py pz].
  replace ((px x - fst prev - (px x - fst w)) ^ 2 + (py x - snd prev - (py x - snd w)) ^ 2)
    with ((fst prev - fst w) ^ 2 + (snd prev - snd w) ^ 2) by ring.
  reflexivity.
Qed.

Lemma polygon_loop_acc xs path v d n h out :
  Acc out (fun j => if Nat.ltb j (length xs) then path_incs d v n h (at_ xs j) path else [])
    (polygon_loop xs path v d n h out).
Proof.
  unfold polygon_loop. apply Acc_points. intros j o.
  eapply Acc_ext; [|apply (Acc_fold _ (fun k j' => if Nat.eqb j' j then
    map (fun e => edge_inc d v (image h k (at_ xs j)) (fst e) (snd e)) (edges_of path) else []))].
  - intros j' _. cbn beta. rewrite flat_map_ltb. reflexivity.
  - intros k o' _. rewrite vertex_loop_edges. apply Acc_images.
Qed.

Lemma mesh_loop_acc xs points edges pots d n h out :
  Acc out (fun j => if Nat.ltb j (length xs) then mesh_incs d points pots n h edges (at_ xs j) else [])
    (mesh_loop xs points edges pots d n h out).
Proof.
  unfold mesh_loop, mesh_incs.
  eapply Acc_ext; [|eapply (Acc_fold _ (fun e j => if Nat.ltb j (length xs) then
    map (fun k => edge_inc d (nth (snd e) pots 0) (image h k (at_ xs j))
     (nth (fst (fst e)) points (0,0)) (nth (snd (fst e)) points (0,0))) (images n) else []))].
  - intros j _. cbn beta. now rewrite flat_map_ltb.
  - intros e o _. apply Acc_points. intros j o'.
    eapply Acc_ext; [|apply Acc_images]. intros j' _. cbn beta.
    destruct (Nat.eqb_spec j' j); [|reflexivity]. apply map_ext. intros k.
    unfold edge_inc, dist, image. cbn [px py pz]. subst j'.
    set (A := (fst _ - fst _) ^ 2 + _). 
    replace A with ((px (at_ xs j) - fst (nth (fst (fst e)) points (0, 0)) -
      (px (at_ xs j) - fst (nth (snd (fst e)) points (0, 0)))) ^ 2 +
     (py (at_ xs j) - snd (nth (fst (fst e)) points (0, 0)) -
      (py (at_ xs j) - snd (nth (snd (fst e)) points (0, 0)))) ^ 2)
      by (unfold A; ring).
    reflexivity.
Qed.

Lemma map2_length {A B C} (f : A -> B -> C) a b : length a = length b ->
  length (map2 f a b) = length a.
Proof. revert b. induction a; intros [|y b] H; cbn in *; try discriminate; auto. Qed.
Lemma map2_nth {A B C} (f : A -> B -> C) a b da db dc j : length a = length b ->
  (j < length a)%nat -> nth j (map2 f a b) dc = f (nth j a da) (nth j b db).
Proof.
  revert b j. induction a; intros [|y b] [|j] H Hj; cbn in *; try discriminate; try lia; auto.
  apply IHa; lia.
Qed.

Lemma potential_acc g xs d v out : well_formed g -> length out = length xs ->
  exists out', potential g xs d v (Some out) = Ok out' /\
    Acc out (fun j => incs g d v (at_ xs j)) out'.
Proof.
  intros Hw Hl.
  assert (E : forall F out', Acc out (fun j => if Nat.ltb j (length xs) then F j else []) out' ->
      Acc out F out').
  { intros F out' HA. eapply Acc_ext; [|exact HA]. intros j Hj. cbn beta.
    destruct (Nat.ltb_spec j (length xs)); [reflexivity|lia]. }
  destruct g as [pixels n h|paths n h|points edges pots n h|h|u]; cbn [potential incs].
  - eexists. split; [reflexivity|]. apply E, point_loop_acc.
  - cbn in Hw. destruct (existsb _ paths) eqn:Ex.
    + exfalso. apply existsb_exists in Ex. destruct Ex as ([|] & Hin & Hb); [auto|discriminate].
    + eexists. split; [reflexivity|].
      eapply Acc_ext; [|apply (Acc_fold _ (fun p j => if Nat.ltb j (length xs)
        then path_incs d v n h (at_ xs j) p else []))].
      * intros j Hj. cbn beta. rewrite flat_map_ltb.
        destruct (Nat.ltb_spec j (length xs)); [reflexivity|lia].
      * intros p o _. apply polygon_loop_acc.
  - assert (Hok : mesh_ok points edges pots = true).
    { unfold mesh_ok. apply forallb_forall. intros e He.
      destruct (Hw e He) as (A1 & A2 & A3). apply Nat.ltb_lt in A1, A2, A3.
      now rewrite A1, A2, A3. }
    rewrite Hok. eexists. split; [reflexivity|]. apply E, mesh_loop_acc.
  - eexists. split; [reflexivity|]. unfold add_rows. split.
    + apply map2_length. now rewrite map_length.
    + intros j Hj. rewrite (@map2_nth row row row add_into out _ [] [] [] j) by (rewrite ?map_length; auto).
      cbn [fold_left]. f_equal. unfold at_.
      rewrite (nth_indep _ [] (cover_inc h v d (P3 0 0 0))) by (rewrite map_length; lia).
      now rewrite map_nth.
  - eexists. split; [reflexivity|]. unfold add_rows. split.
    + apply map2_length. now rewrite map_length.
    + intros j Hj. rewrite (@map2_nth row row row add_into out _ [] [] [] j) by (rewrite ?map_length; auto).
      cbn [fold_left]. f_equal. unfold at_.
      rewrite (nth_indep _ [] (map (Rmult v) (u d (P3 0 0 0)))) by (rewrite map_length; lia).
      now rewrite (map_nth (fun x => map (Rmult v) (u d x))).
Qed.

(** ** widths and linearity of the closed forms *)
Lemma point_expr_length d x y z r a : (length (point_expr d x y z r a) <= 2 * d + 1)%nat.
Proof. do 6 (destruct d as [|d]; [cbn; lia|]). cbn. lia. Qed.
Lemma edge_expr_length d x1 x2 y1 y2 r1 r2 l2 z a :
  (length (edge_expr d x1 x2 y1 y2 r1 r2 l2 z a) <= 2 * d + 1)%nat.
Proof. do 6 (destruct d as [|d]; [cbn; lia|]). cbn. lia. Qed.

Lemma lin_aux q n n1 a : n = a * n1 -> q * n = a * (q * n1).
Proof. intros ->. ring. Qed.
Ltac lin_entry := apply lin_aux; unfold Rdiv; ring.
Lemma point_expr_lin d x y z r a i :
  nth i (point_expr d x y z r a) 0 = a * nth i (point_expr d x y z r 1) 0.
Proof.
  do 6 (destruct d as [|d]; [
    cbv beta iota delta [point_expr point_expr0 point_expr1 point_expr2 point_expr3
      point_expr4 point_expr5] zeta;
    repeat (destruct i as [|i]; cbn [nth]; [first [lin_entry | ring]|]);
    try ring; destruct i; cbn [nth]; ring|]).
  destruct i; cbn [point_expr nth]; ring.
Qed.
Lemma edge_expr_lin d x1 x2 y1 y2 r1 r2 l2 z a i :
  nth i (edge_expr d x1 x2 y1 y2 r1 r2 l2 z a) 0
  = a * nth i (edge_expr d x1 x2 y1 y2 r1 r2 l2 z 1) 0.
Proof.
  do 6 (destruct d as [|d]; [
    cbv beta iota delta [edge_expr edge_expr0 edge_expr1 edge_expr2 edge_expr3
      edge_expr4 edge_expr5] zeta;
    repeat (destruct i as [|i]; cbn [nth]; [first [lin_entry | ring]|]);
    try ring; destruct i; cbn [nth]; ring|]).
  destruct i; cbn [edge_expr nth]; ring.
Qed.

(** ** sums *)
Lemma sum_app {A} (l l' : list A) f : sum_over (l ++ l') f = sum_over l f + sum_over l' f.
Proof. unfold sum_over. induction l; cbn; lra. Qed.
Lemma sum_cons {A} a (l : list A) f : sum_over (a :: l) f = f a + sum_over l f.
Proof. reflexivity. Qed.
Lemma sum_flat {A B} (g : A -> list B) l f :
  sum_over (flat_map g l) f = sum_over l (fun a => sum_over (g a) f).
Proof. induction l; cbn [flat_map]; [reflexivity|]. now rewrite sum_app, sum_cons, IHl. Qed.
Lemma sum_map {A B} (g : A -> B) l f : sum_over (map g l) f = sum_over l (fun a => f (g a)).
Proof. induction l; [reflexivity|]. cbn [map]. now rewrite !sum_cons, IHl. Qed.
Lemma sum_ext {A} (l : list A) f g : (forall a, In a l -> f a = g a) -> sum_over l f = sum_over l g.
Proof.
  induction l; intros H; [reflexivity|]. rewrite !sum_cons, H, IHl; auto; [|now left].
  intros b Hb. apply H. now right.
Qed.
Lemma sum_scal {A} (l : list A) c f : sum_over l (fun a => c * f a) = c * sum_over l f.
Proof. induction l; [unfold sum_over; cbn; ring|]. rewrite !sum_cons, IHl. ring. Qed.
Lemma sum_plus {A} (l : list A) f g :
  sum_over l (fun a => f a + g a) = sum_over l f + sum_over l g.
Proof. induction l; [unfold sum_over; cbn; ring|]. rewrite !sum_cons, IHl. ring. Qed.
Lemma sum_zero {A} (l : list A) f : (forall a, In a l -> f a = 0) -> sum_over l f = 0.
Proof.
  induction l; intros H; [reflexivity|]. rewrite sum_cons, H by now left.
  rewrite IHl; [ring|]. intros b Hb. apply H. now right.
Qed.
Lemma sum_swap {A B} (l : list A) (m : list B) f :
  sum_over l (fun a => sum_over m (fun b => f a b)) = sum_over m (fun b => sum_over l (fun a => f a b)).
Proof.
  induction l as [|a l IH].
  - symmetry. apply sum_zero. reflexivity.
  - rewrite sum_cons, IH, <- sum_plus. reflexivity.
Qed.

Lemma edge_inc_unit d v q v1 v2 i :
  nth i (edge_inc d v q v1 v2) 0 = v * edge_term d v1 v2 i q.
Proof. apply edge_expr_lin. Qed.

Lemma incs_sum g d v x i : well_formed g ->
  sum_over (incs g d v x) (fun inc => nth i inc 0) = v * unit_term g d i x.
Proof.
  intros Hw. destruct g as [pixels n h|paths n h|points edges pots n h|h|u]; cbn [incs unit_term].
  - unfold pixel_incs. rewrite sum_flat, <- sum_scal. apply sum_ext. intros [w a] _.
    rewrite sum_map. cbn [fst snd]. rewrite <- Rmult_assoc, <- sum_scal.
    apply sum_ext. intros k _. cbn zeta. rewrite point_expr_lin. unfold pixel_term. ring.
  - rewrite sum_flat, <- sum_scal. apply sum_ext. intros path _.
    unfold path_incs. rewrite sum_flat, <- sum_scal. apply sum_ext. intros k _.
    rewrite sum_map, <- sum_scal. apply sum_ext. intros e _. apply edge_inc_unit.
  - unfold mesh_incs. rewrite sum_flat, <- sum_scal. apply sum_ext. intros e He.
    rewrite sum_map. rewrite <- Rmult_assoc, <- sum_scal. apply sum_ext. intros k _.
    rewrite edge_inc_unit. f_equal.
    rewrite (nth_indep _ 0 (0 * v)) by (rewrite map_length; apply (Hw e He)).
    rewrite (map_nth (fun p => p * v)). ring.
  - unfold sum_over. cbn [map sumR]. unfold cover_inc.
    destruct d as [|[|d]]; destruct i as [|[|[|i]]]; cbn [nth Nat.eqb]; unfold Rdiv; try ring;
      destruct i; cbn; ring.
  - unfold sum_over. cbn [map sumR]. rewrite Rplus_0_r.
    rewrite <- (map_nth (Rmult v)). now rewrite Rmult_0_r.
Qed.
Lemma incs_width g d v x : well_formed g ->
  Forall (fun inc => (length inc <= 2 * d + 1)%nat) (incs g d v x).
Proof.
  intros Hw. apply Forall_forall. intros inc Hin.
  destruct g as [pixels n h|paths n h|points edges pots n h|h|u]; cbn [incs] in Hin.
  - apply in_flat_map in Hin. destruct Hin as (pa & _ & Hin). apply in_map_iff in Hin.
    destruct Hin as (k & <- & _). apply point_expr_length.
  - apply in_flat_map in Hin. destruct Hin as (p & _ & Hin). unfold path_incs in Hin.
    apply in_flat_map in Hin. destruct Hin as (k & _ & Hin). apply in_map_iff in Hin.
    destruct Hin as (e & <- & _). apply edge_expr_length.
  - apply in_flat_map in Hin. destruct Hin as (e & _ & Hin). apply in_map_iff in Hin.
    destruct Hin as (k & <- & _). apply edge_expr_length.
  - destruct Hin as [<-|[]]. destruct d as [|[|d]]; cbn; lia.
  - destruct Hin as [<-|[]]. rewrite map_length, Hw. lia.
Qed.

(** C06 *)
Lemma potential_spec g xs d v out : well_formed g -> shaped_rows d (length xs) out ->
  exists out', potential g xs d v (Some out) = Ok out' /\
    shaped_rows d (length xs) out' /\
    forall j i, (j < length xs)%nat ->
      cell out' j i = cell out j i + v * unit_term g d i (at_ xs j).
Proof.
  intros Hw [Hl Hr]. destruct (potential_acc g xs d v out Hw Hl) as (out' & E & [L A]).
  exists out'. split; [exact E|].
  assert (RL : forall j, (j < length xs)%nat -> length (nth j out []) = (2 * d + 1)%nat).
  { intros j Hj. rewrite Forall_forall in Hr. apply Hr. apply nth_In. lia. }
  split.
  - split; [congruence|]. apply Forall_forall. intros r Hin.
    apply (In_nth _ _ []) in Hin. destruct Hin as (j & Hj & <-).
    assert (Hj' : (j < length xs)%nat) by (rewrite <- Hl, <- L; exact Hj).
    rewrite A by (rewrite Hl; exact Hj'). rewrite fold_add_length. now apply RL.
  - intros j i Hj. unfold cell. rewrite A by (rewrite Hl; exact Hj).
    rewrite fold_add_nth.
    + now rewrite incs_sum.
    + rewrite RL by exact Hj. now apply incs_width.
Qed.
Lemma zeros_shaped d n : shaped_rows d n (zeros d n).
Proof.
  split; [apply repeat_length|]. apply Forall_forall. intros r H.
  apply repeat_spec in H. subst. apply repeat_length.
Qed.
Lemma zeros_cell d n j i : cell (zeros d n) j i = 0.
Proof.
  unfold cell, zeros. destruct (Nat.lt_ge_cases j n) as [H|H].
  - rewrite (nth_indep _ [] (repeat 0 (2 * d + 1))) by (now rewrite repeat_length).
    rewrite nth_repeat. destruct (Nat.lt_ge_cases i (2 * d + 1)).
    + apply nth_repeat.
    + apply nth_overflow. now rewrite repeat_length.
  - rewrite (nth_overflow (repeat (repeat 0 (2 * d + 1)) n)) by (now rewrite repeat_length). now destruct i.
Qed.
Lemma rows_ext d n a b : shaped_rows d n a -> shaped_rows d n b ->
  (forall j i, (j < n)%nat -> (i < 2 * d + 1)%nat -> cell a j i = cell b j i) -> a = b.
Proof.
  intros [La Ra] [Lb Rb] H. apply (nth_ext _ _ [] []); [congruence|].
  intros j Hj. rewrite Forall_forall in Ra, Rb.
  assert (A1 : length (nth j a []) = (2 * d + 1)%nat) by (apply Ra, nth_In; lia).
  assert (B1 : length (nth j b []) = (2 * d + 1)%nat) by (apply Rb, nth_In; lia).
  apply (nth_ext _ _ 0 0); [congruence|]. intros i Hi. apply H; lia.
Qed.

Lemma potential_none g xs d v :
  potential g xs d v None = potential g xs d v (Some (zeros d (length xs))).
Proof. reflexivity. Qed.

Lemma potential_batch g xs d v j : well_formed g -> (j < length xs)%nat ->
  exists out r, potential g xs d v None = Ok out /\
    potential g [at_ xs j] d v None = Ok [r] /\ nth j out [] = r.
Proof.
  intros Hw Hj.
  destruct (potential_spec g xs d v _ Hw (zeros_shaped d (length xs))) as (o1 & E1 & S1 & C1).
  destruct (potential_spec g [at_ xs j] d v _ Hw (zeros_shaped d 1)) as (o2 & E2 & S2 & C2).
  exists o1, (nth 0 o2 []). split; [exact E1|]. split.
  - rewrite potential_none. cbn [length]. rewrite E2. f_equal.
    destruct S2 as [L2 _]. destruct o2 as [|r [|]]; try discriminate. reflexivity.
  - destruct S1 as [L1 R1]. destruct S2 as [L2 R2]. rewrite Forall_forall in R1, R2.
    assert (A1 : length (nth j o1 []) = (2 * d + 1)%nat) by (apply R1, nth_In; lia).
    assert (B1 : length (nth 0 o2 []) = (2 * d + 1)%nat) by (apply R2, nth_In; cbn in L2; lia).
    apply (nth_ext _ _ 0 0); [congruence|]. intros i Hi.
    specialize (C1 j i Hj). specialize (C2 0%nat i ltac:(cbn; lia)).
    unfold cell in C1, C2. rewrite C1, C2.
    fold (cell (zeros d (length xs)) j i) (cell (zeros d 1) 0 i).
    rewrite !zeros_cell. reflexivity.
Qed.

(** C05 *)
Definition volt_of (t : vtyp) (e : electrode) : R :=
  match t with TDc => edc e | TRf => erf e | TNone => 0 end.
Lemma el_loop_spec s xs d t : (forall e, In e s -> well_formed (egeom e)) ->
  forall pot, shaped_rows d (length xs) pot ->
  exists pot', el_loop s xs d t pot = Ok pot' /\ shaped_rows d (length xs) pot' /\
    forall j i, (j < length xs)%nat ->
      cell pot' j i = cell pot j i +
        sum_over s (fun e => volt_of t e * unit_term (egeom e) d i (at_ xs j)).
Proof.
  induction s as [|e s IH]; intros Hw pot Hp; cbn [el_loop].
  - exists pot. split; [reflexivity|]. split; [exact Hp|]. intros. unfold sum_over. cbn. ring.
  - specialize (IH (fun e' He => Hw e' (or_intror He))).
    assert (Skip : volt_of t e = 0 ->
      exists pot', el_loop s xs d t pot = Ok pot' /\ shaped_rows d (length xs) pot' /\
      forall j i, (j < length xs)%nat -> cell pot' j i = cell pot j i +
        sum_over (e :: s) (fun e => volt_of t e * unit_term (egeom e) d i (at_ xs j))).
    { intros H0. destruct (IH pot Hp) as (pot' & E & S & C). exists pot'.
      split; [exact E|]. split; [exact S|]. intros j i Hj. rewrite C by exact Hj.
      rewrite sum_cons, H0. ring. }
    destruct (volt t e) as [v|] eqn:Ev.
    + assert (Hv : volt_of t e = v) by (destruct t; cbn in *; congruence).
      destruct (Req_EM_T v 0) as [->|Hn]; [now apply Skip|].
      destruct (potential_spec (egeom e) xs d v pot (Hw e (or_introl eq_refl)) Hp)
        as (p1 & E1 & S1 & C1).
      rewrite E1. cbn [bind]. destruct (IH p1 S1) as (pot' & E & S & C). exists pot'.
      split; [exact E|]. split; [exact S|]. intros j i Hj. rewrite C by exact Hj.
      rewrite C1 by exact Hj. rewrite sum_cons, Hv. ring.
    + apply Skip. destruct t; cbn in *; congruence.
Qed.
Lemma electrical_spec s xs d t : (forall e, In e s -> well_formed (egeom e)) ->
  exists pot, electrical_potential s xs d t = Ok pot /\ shaped_rows d (length xs) pot /\
    forall j i, (j < length xs)%nat -> cell pot j i =
      sum_over s (fun e => volt_of t e * unit_term (egeom e) d i (at_ xs j)).
Proof.
  intros Hw. destruct (el_loop_spec s xs d t Hw _ (zeros_shaped d (length xs)))
    as (pot & E & S & C).
  exists pot. split; [exact E|]. split; [exact S|]. intros j i Hj. rewrite C by exact Hj.
  rewrite zeros_cell. ring.
Qed.
Lemma individual_spec s xs d : (forall e, In e s -> well_formed (egeom e)) ->
  exists eff, individual_potential s xs d = Ok eff /\ length eff = length s /\
    forall m, (m < length s)%nat -> shaped_rows d (length xs) (nth m eff []) /\
    forall j i, (j < length xs)%nat ->
      cell (nth m eff []) j i = unit_term (egeom (nth m s (Electrode "" 0 0 (ECover 1)))) d i (at_ xs j).
Proof.
  unfold individual_potential. induction s as [|e s IH]; intros Hw; cbn [map collect].
  - exists []. split; [reflexivity|]. split; [reflexivity|]. cbn. lia.
  - destruct (potential_spec (egeom e) xs d 1 _ (Hw e (or_introl eq_refl))
      (zeros_shaped d (length xs))) as (p1 & E1 & S1 & C1).
    rewrite E1. cbn [bind]. destruct (IH (fun e' He => Hw e' (or_intror He))) as (eff & E & L & C).
    rewrite E. cbn [bind]. exists (p1 :: eff). split; [reflexivity|]. split; [cbn; lia|].
    intros [|m] Hm.
    + cbn [nth]. split; [exact S1|]. intros j i Hj. rewrite C1 by exact Hj.
      rewrite zeros_cell. ring.
    + cbn [nth]. apply C. cbn in Hm. lia.
Qed.
Lemma sum_index {A} (s : list A) (dflt : A) f :
  sum_over s f = sum_over (seq 0 (length s)) (fun m => f (nth m s dflt)).
Proof.
  induction s as [|a s IH]; [reflexivity|]. cbn [length seq].
  rewrite !sum_cons. cbn [nth]. rewrite <- seq_shift, sum_map. now rewrite IH.
Qed.
Lemma superposition s xs d t : (forall e, In e s -> well_formed (egeom e)) ->
  exists pot eff, electrical_potential s xs d t = Ok pot /\
    individual_potential s xs d = Ok eff /\
    shaped_rows d (length xs) pot /\ length eff = length s /\
    (forall m, (m < length s)%nat -> shaped_rows d (length xs) (nth m eff [])) /\
    forall j i, (j < length xs)%nat -> cell pot j i =
      sum_over (seq 0 (length s)) (fun m =>
        match nth_error s m with
        | Some e => match t with TDc => edc e | TRf => erf e | TNone => 0 end
        | None => 0 end * cell (nth m eff []) j i).
Proof.
  intros Hw. destruct (electrical_spec s xs d t Hw) as (pot & E & S & C).
  destruct (individual_spec s xs d Hw) as (eff & E' & L & C').
  exists pot, eff. repeat (split; [assumption|]). split; [intros m Hm; now apply C'|].
  intros j i Hj. rewrite C by exact Hj.
  rewrite (sum_index s (Electrode "" 0 0 (ECover 1))). apply sum_ext. intros m Hm.
  apply in_seq in Hm. rewrite (nth_error_nth' s (Electrode "" 0 0 (ECover 1))) by lia.
  destruct (C' m ltac:(lia)) as [_ Cm]. rewrite Cm by exact Hj. reflexivity.
Qed.

(** same geometry, voltages combined *)
Lemma linear_voltages s1 s2 s3 al be xs d t :
  (forall e, In e s1 -> well_formed (egeom e)) ->
  map egeom s1 = map egeom s2 -> map egeom s1 = map egeom s3 ->
  (forall m, volt_of t (nth m s3 (Electrode "" 0 0 (ECover 1))) =
     al * volt_of t (nth m s1 (Electrode "" 0 0 (ECover 1))) +
     be * volt_of t (nth m s2 (Electrode "" 0 0 (ECover 1)))) ->
  exists p1 p2 p3, electrical_potential s1 xs d t = Ok p1 /\
    electrical_potential s2 xs d t = Ok p2 /\ electrical_potential s3 xs d t = Ok p3 /\
    forall j i, (j < length xs)%nat -> cell p3 j i = al * cell p1 j i + be * cell p2 j i.
Proof.
  set (dflt := Electrode "" 0 0 (ECover 1)).
  intros H1 G2 G3 HV.
  assert (WF : forall s, map egeom s1 = map egeom s -> forall e, In e s -> well_formed (egeom e)).
  { intros s G e He. assert (I : In (egeom e) (map egeom s1)) by (rewrite G; now apply in_map).
    apply in_map_iff in I. destruct I as (e1 & <- & I1). auto. }
  destruct (electrical_spec s1 xs d t H1) as (p1 & E1 & _ & C1).
  destruct (electrical_spec s2 xs d t (WF s2 G2)) as (p2 & E2 & _ & C2).
  destruct (electrical_spec s3 xs d t (WF s3 G3)) as (p3 & E3 & _ & C3).
  exists p1, p2, p3. repeat (split; [assumption|]). intros j i Hj.
  rewrite C1, C2, C3 by exact Hj.
  rewrite (sum_index s1 dflt), (sum_index s2 dflt), (sum_index s3 dflt).
  assert (L2 : length s2 = length s1) by (rewrite <- (map_length egeom s2), <- G2; apply map_length).
  assert (L3 : length s3 = length s1) by (rewrite <- (map_length egeom s3), <- G3; apply map_length).
  rewrite L2, L3, <- !sum_scal, <- sum_plus. apply sum_ext. intros m Hm.
  assert (GE : forall s, map egeom s1 = map egeom s -> egeom (nth m s dflt) = egeom (nth m s1 dflt)).
  { intros s G. rewrite <- !(map_nth egeom). now rewrite G. }
  rewrite (GE s2 G2), (GE s3 G3), HV. ring.
Qed.
Lemma append_systems s1 s2 xs d t :
  (forall e, In e (s1 ++ s2) -> well_formed (egeom e)) ->
  exists p1 p2 p, electrical_potential s1 xs d t = Ok p1 /\
    electrical_potential s2 xs d t = Ok p2 /\ electrical_potential (s1 ++ s2) xs d t = Ok p /\
    forall j i, (j < length xs)%nat -> cell p j i = cell p1 j i + cell p2 j i.
Proof.
  intros Hw.
  destruct (electrical_spec s1 xs d t (fun e H => Hw e (in_or_app _ _ _ (or_introl H))))
    as (p1 & E1 & _ & C1).
  destruct (electrical_spec s2 xs d t (fun e H => Hw e (in_or_app _ _ _ (or_intror H))))
    as (p2 & E2 & _ & C2).
  destruct (electrical_spec (s1 ++ s2) xs d t Hw) as (p & E & _ & C).
  exists p1, p2, p. repeat (split; [assumption|]). intros j i Hj.
  rewrite C, C1, C2 by exact Hj. apply sum_app.
Qed.

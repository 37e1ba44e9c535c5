(** Without rounding the floating-point model is the model of ModelField
    (part of C164). *)
From Verif Require Import Base ModelExpr ModelField ModelFloat ModelFloatExpr ModelFloatField SpecFloat ProofFloat ProofFloat2.
Open Scope R_scope.

Lemma point_exact d v x y z r a :
  map (feval exact v) (point_fx d x y z r a) =
  point_expr d (feval exact v x) (feval exact v y) (feval exact v z) (feval exact v r) (feval exact v a).
Proof. destruct d as [|[|[|[|[|[|d]]]]]]; reflexivity. Qed.
Lemma edge_exact d v x1 x2 y1 y2 r1 r2 l2 z a :
  map (feval exact v) (edge_fx d x1 x2 y1 y2 r1 r2 l2 z a) =
  edge_expr d (feval exact v x1) (feval exact v x2) (feval exact v y1) (feval exact v y2)
    (feval exact v r1) (feval exact v r2) (feval exact v l2) (feval exact v z) (feval exact v a).
Proof. destruct d as [|[|[|[|[|[|d]]]]]]; reflexivity. Qed.

Lemma exec_app A v a b out : fexec A v (a ++ b) out = fexec A v b (fexec A v a out).
Proof. unfold fexec. apply fold_left_app. Qed.
Lemma exec_flat {X} A v (f : X -> list stmt) l out :
  fexec A v (flat_map f l) out = fold_left (fun o x => fexec A v (f x) o) l out.
Proof.
  revert out; induction l as [|x l IH]; intros out; [reflexivity|].
  cbn [flat_map fold_left]. rewrite exec_app. apply IH.
Qed.
Lemma fold_ext {X Y} (f g : X -> Y -> X) l a : (forall a x, f a x = g a x) -> fold_left f l a = fold_left g l a.
Proof. intros H; revert a; induction l as [|x l IH]; intros a; cbn; [reflexivity|]. rewrite H. apply IH. Qed.

Fixpoint add_from (k : nat) (r inc : row) : row :=
  match k, r with
  | O, _ => add_into r inc
  | S k', a :: r' => a :: add_from k' r' inc
  | S _, [] => []
  end.
Lemma upd_row_id j (out : list row) : upd_row j (fun r => r) out = out.
Proof. revert j; induction out as [|a r IH]; intros [|j]; cbn; auto. rewrite IH; reflexivity. Qed.
Lemma upd_row_ext j f g (out : list row) : (forall r, f r = g r) -> upd_row j f out = upd_row j g out.
Proof. intros H; revert j; induction out as [|a r IH]; intros [|j]; cbn; rewrite ?H, ?IH; reflexivity. Qed.
Lemma upd_row_comp j f g (out : list row) : upd_row j f (upd_row j g out) = upd_row j (fun r => f (g r)) out.
Proof. revert j; induction out as [|a r IH]; intros [|j]; cbn; rewrite ?IH; reflexivity. Qed.
Lemma add_from_nil k r : add_from k r [] = r.
Proof. revert r; induction k as [|k IH]; intros [|a r]; cbn; rewrite ?IH; reflexivity. Qed.
Lemma add_from_cons k r c inc : add_from k r (c :: inc) = add_from (S k) (upd_at k (fun a => a + c) r) inc.
Proof.
  revert r; induction k as [|k IH]; intros [|a r]; cbn [add_from upd_at]; try reflexivity.
  f_equal. rewrite IH. reflexivity.
Qed.
Lemma exec_on_row v j l out :
  fexec exact v (on_row j l) out = upd_row j (fun r => add_into r (map (feval exact v) l)) out.
Proof.
  unfold on_row. change (fun r => add_into r (map (feval exact v) l)) with (fun r => add_from 0 r (map (feval exact v) l)).
  generalize 0%nat as k. revert out; induction l as [|e l IH]; intros out k.
  - cbn [length seq combine map fexec fold_left]. rewrite (upd_row_ext j _ (fun r => r)) by (intros r; apply add_from_nil).
    rewrite upd_row_id; reflexivity.
  - cbn [length seq combine map]. cbn [fst snd].
    change (fexec exact v (Stmt j k e :: ?q) out) with (fexec exact v q (fexec1 exact v out (Stmt j k e))).
    rewrite IH. unfold fexec1; cbn [sj si se]. rewrite upd_row_comp. apply upd_row_ext; intros r.
    rewrite add_from_cons. reflexivity.
Qed.

Lemma z_exact v x k h : feval exact v (fx_z x k h) = pz x + 2 * IZR k * h.
Proof. cbn [fx_z feval exact rnd]. rewrite mult_IZR. reflexivity. Qed.

Lemma point_stmts_exact xs pixels d nmax h v out :
  fexec exact v (point_stmts xs pixels d nmax h) out = point_loop xs pixels v d nmax h out.
Proof.
  unfold point_stmts, point_loop. rewrite exec_flat. apply fold_ext; intros o pa. cbv zeta.
  rewrite exec_flat. apply fold_ext; intros o1 j. rewrite exec_flat. apply fold_ext; intros o2 k.
  rewrite exec_on_row, point_exact. apply upd_row_ext; intros r. f_equal.
  cbn [feval fx_r fx_x fx_y exact rnd lpow]. rewrite !z_exact. reflexivity.
Qed.
Lemma vertex_stmts_exact x z d j vs v : forall x2 y2 r2 out,
  fexec exact v (vertex_stmts x z d j vs x2 y2 r2) out =
  snd (vertex_loop x (feval exact v z) v d j vs ((feval exact v x2, feval exact v y2, feval exact v r2), out)).
Proof.
  induction vs as [|p vs IH]; intros x2 y2 r2 out; [reflexivity|].
  cbn [vertex_stmts]. cbv zeta. rewrite exec_app, IH, exec_on_row, edge_exact.
  unfold vertex_loop at 2. cbn [fold_left]. reflexivity.
Qed.
Lemma polygon_stmts_exact xs p d nmax h v out :
  fexec exact v (polygon_stmts xs p d nmax h) out = polygon_loop xs p v d nmax h out.
Proof.
  unfold polygon_stmts, polygon_loop. rewrite exec_flat. apply fold_ext; intros o j. cbv zeta.
  rewrite exec_flat. apply fold_ext; intros o1 m. rewrite vertex_stmts_exact, z_exact.
  cbn [feval fx_r fx_x fx_y exact rnd lpow]. rewrite !z_exact. reflexivity.
Qed.
Lemma mesh_stmts_exact xs points edges pots d nmax h v out : mesh_ok points edges pots = true ->
  fexec exact v (mesh_stmts xs points edges pots d nmax h) out =
  mesh_loop xs points edges (map (fun p => p * v) pots) d nmax h out.
Proof.
  intros Hok. unfold mesh_stmts, mesh_loop. rewrite exec_flat. revert out.
  unfold mesh_ok in Hok. 
  induction edges as [|e edges IH]; intros out; [reflexivity|].
  cbn [forallb] in Hok. apply andb_prop in Hok as [He Hok]. cbn [fold_left].
  rewrite (IH Hok). f_equal. clear IH.
  rewrite exec_flat. apply fold_ext; intros o1 j. cbv zeta. rewrite exec_flat. apply fold_ext; intros o2 k.
  rewrite exec_on_row, edge_exact. apply upd_row_ext; intros r. f_equal.
  cbn [feval fx_r fx_x fx_y fx_l2 exact rnd lpow]. rewrite !z_exact.
  apply andb_prop in He as [_ He]. apply Nat.ltb_lt in He.
  replace (nth (snd e) (map (fun p => p * v) pots) 0) with (nth (snd e) pots 0 * v); [reflexivity|].
  symmetry. rewrite nth_indep with (d' := 0 * v) by (rewrite map_length; exact He).
  apply (map_nth (fun p => p * v)).
Qed.

(** one row after the other *)
Lemma rows_shift (F : nat -> row -> row) r out k n :
  fold_left (fun o j => upd_row (S j) (F j) o) (seq k n) (r :: out) =
  r :: fold_left (fun o j => upd_row j (F j) o) (seq k n) out.
Proof. revert out k; induction n as [|n IH]; intros out k; cbn [seq fold_left upd_row]; [reflexivity|]. apply IH. Qed.
Lemma fold_seq_S {X} (f : X -> nat -> X) a k n : fold_left f (seq (S k) n) a = fold_left (fun o j => f o (S j)) (seq k n) a.
Proof. revert a k; induction n as [|n IH]; intros a k; cbn [seq fold_left]; [reflexivity|]. apply IH. Qed.
Lemma add_rows_fold (f : p3 -> row) (G : p3 -> row -> row) xs : forall out, length out = length xs ->
  (forall x r, In x xs -> G x r = add_into r (f x)) ->
  fold_left (fun o j => upd_row j (G (at_ xs j)) o) (seq 0 (length xs)) out = add_rows f xs out.
Proof.
  induction xs as [|x xs IH]; intros [|r out] H HG; try discriminate; [reflexivity|].
  cbn [length seq fold_left upd_row]. rewrite fold_seq_S. cbn [at_ nth].
  rewrite (rows_shift (fun j => G (nth j xs (P3 0 0 0)))).
  cbn [add_rows map map2]. unfold add_rows. cbn [map map2]. f_equal.
  - apply HG. left; reflexivity.
  - apply IH; [cbn in H; lia|]. intros y r' Hy. apply HG. right; exact Hy.
Qed.
Lemma cover_stmts_exact xs h d v out : length out = length xs ->
  fexec exact v (cover_stmts xs h d) out = add_rows (cover_inc h v d) xs out.
Proof.
  intros L.
  assert (M : forall e i, fexec exact v (map (fun j => Stmt j i (e (at_ xs j))) (seq 0 (length xs))) out =
              fold_left (fun o j => upd_row j (upd_at i (fun a => a + feval exact v (e (at_ xs j)))) o) (seq 0 (length xs)) out).
  { intros e i. generalize (seq 0 (length xs)) as l. intros l. clear L. revert out.
    induction l as [|j l IH]; intros out; [reflexivity|]. cbn [map fold_left]. rewrite <- IH. reflexivity. }
  destruct d as [|[|d]]; cbn [cover_stmts].
  - rewrite (M (fun x => Volt * Num (pz x) / Num h)%fx 0%nat).
    rewrite <- (add_rows_fold (cover_inc h v 0) (fun x r => upd_at 0 (fun a => a + feval exact v (Volt * Num (pz x) / Num h)%fx) r) xs out L).
    + reflexivity.
    + intros x [|a [|b r]] _; reflexivity.
  - rewrite (M (fun x => Volt / Num h)%fx 2%nat).
    rewrite <- (add_rows_fold (cover_inc h v 1) (fun x r => upd_at 2 (fun a => a + feval exact v (Volt / Num h)%fx) r) xs out L).
    + reflexivity.
    + intros x [|a [|b [|c [|c' r]]]] _; cbn; rewrite ?Rplus_0_r; reflexivity.
  - rewrite <- (add_rows_fold (cover_inc h v (S (S d))) (fun x r => r) xs out L).
    + clear M. cbn [fexec fold_left]. generalize (seq 0 (length xs)) as l; intros l.
      induction l as [|j l IH]; [reflexivity|]. cbn [fold_left]. rewrite upd_row_id. exact IH.
    + intros x [|a r] _; reflexivity.
Qed.
Lemma other_stmts_exact xs u v out : length out = length xs ->
  fexec exact v (other_stmts xs u) out = add_rows (fun x => map (Rmult v) (u x)) xs out.
Proof.
  intros L. unfold other_stmts. rewrite exec_flat.
  rewrite <- (add_rows_fold _ (fun x r => add_into r (map (Rmult v) (u x))) xs out L) by reflexivity.
  apply fold_ext; intros o j. rewrite exec_on_row. rewrite map_map. reflexivity.
Qed.

Lemma exec_length A v l out : length (fexec A v l out) = length out.
Proof.
  revert out; induction l as [|s l IH]; intros out; [reflexivity|].
  change (fexec A v (s :: l) out) with (fexec A v l (fexec1 A v out s)). rewrite IH. unfold fexec1.
  apply upd_row_spec.
Qed.
Lemma fpotential_exact g xs d v out : length out = length xs ->
  fpotential exact g xs d v out = potential g xs d v (Some out).
Proof.
  intros L. unfold fpotential. destruct g as [pixels nmax h|paths nmax h|points edges pots nmax h|h|u]; cbn [stmts potential].
  - cbn [bind]. rewrite point_stmts_exact; reflexivity.
  - destruct existsb; [reflexivity|]. cbn [bind]. f_equal. rewrite exec_flat. apply fold_ext; intros o p.
    apply polygon_stmts_exact.
  - destruct mesh_ok eqn:E; [|reflexivity]. cbn [bind]. rewrite mesh_stmts_exact by exact E. reflexivity.
  - cbn [bind]. rewrite cover_stmts_exact by exact L. reflexivity.
  - cbn [bind]. rewrite other_stmts_exact by exact L. reflexivity.
Qed.
Lemma felectrical_exact s xs d t : felectrical_potential exact s xs d t = electrical_potential s xs d t.
Proof.
  unfold felectrical_potential, electrical_potential.
  assert (L : length (zeros d (length xs)) = length xs) by (unfold zeros; apply repeat_length).
  revert L. generalize (zeros d (length xs)) as out. induction s as [|e s IH]; intros out L; [reflexivity|].
  cbn [fel_loop el_loop]. destruct (volt t e) as [v|]; [|apply IH, L].
  destruct (Req_EM_T v 0); [apply IH, L|]. rewrite <- fpotential_exact by exact L.
  unfold fpotential. destruct (stmts (egeom e) xs d) as [l|]; cbn [bind]; [|reflexivity].
  apply IH. rewrite exec_length; exact L.
Qed.

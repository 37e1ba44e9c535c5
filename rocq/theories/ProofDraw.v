From Coq Require Import Permutation.
From Verif Require Import Base ModelUtils ModelField ModelGeom ModelPlot SpecField SpecPoly SpecMax ModelDraw SpecDraw ProofField ProofCons ProofGrid ProofPlot ProofPoly3.
Open Scope R_scope.
Notation length := List.length.

Lemma close_ok paths : ~ In [] paths -> collect (map close_path paths) = Ok (map (fun p => p ++ [hd (0, 0) p]) paths).
Proof. intros H. apply collect_map. intros [|v p] I; [contradiction|reflexivity]. Qed.
Lemma close_bad paths : In [] paths -> collect (map close_path paths) = Raise IndexError.
Proof.
  induction paths as [|p paths IH]; [intros []|]. intros [->|I]; [reflexivity|]. destruct p as [|v p]; [reflexivity|].
  cbn [map collect close_path bind]. rewrite (IH I). reflexivity.
Qed.
Lemma pen_lines p : forall u l, pen (Some u) (combine p (repeat LineTo (length p)) ++ l) = combine (removelast (u :: p)) p ++ pen (Some (last (u :: p) (0, 0))) l.
Proof.
  induction p as [|v p IH]; intros u l; [reflexivity|]. cbn [length repeat combine app pen]. rewrite IH.
  change (removelast (u :: v :: p)) with (u :: removelast (v :: p)). cbn [combine app]. f_equal.
Qed.
Lemma combine_app2 {A B} (a a' : list A) (b b' : list B) : length a = length b -> combine (a ++ a') (b ++ b') = combine a b ++ combine a' b'.
Proof. revert b. induction a as [|x a IH]; intros [|y b] H; try discriminate H; [reflexivity|]. cbn. f_equal. apply IH. cbn in H. lia. Qed.
Lemma last_snoc {A} (l : list A) x d : last (l ++ [x]) d = x.
Proof. rewrite last_last. reflexivity. Qed.
Lemma ring_edges v p : Permutation (combine (v :: p) (p ++ [v])) (edges_of (v :: p)).
Proof.
  unfold edges_of. destruct (@exists_last _ (v :: p) ltac:(discriminate)) as (q & w & E).
  rewrite E at 2 3. rewrite last_last, removelast_last.
  assert (L : length q = length p). { apply (f_equal (@length p2)) in E. rewrite app_length in E. cbn in E. lia. }
  rewrite E at 1. rewrite (combine_app2 q [w] p [v]) by exact L. cbn [combine].
  change (combine (w :: q) (v :: p)) with ((w, v) :: combine q p). symmetry. apply Permutation_cons_append.
Qed.
Lemma path_segments v p u l : pen u (combine ((v :: p) ++ [v]) (path_codes (v :: p)) ++ l) = combine (v :: p) (p ++ [v]) ++ pen (Some v) l.
Proof.
  unfold path_codes. cbn [app combine pen]. replace (length (v :: p)) with (length (p ++ [v])) by (rewrite app_length; cbn; lia).
  rewrite pen_lines. f_equal.
  - change (v :: p ++ [v]) with ((v :: p) ++ [v]). rewrite removelast_last. reflexivity.
  - change (v :: p ++ [v]) with ((v :: p) ++ [v]). rewrite last_last. reflexivity.
Qed.
Lemma all_segments paths : ~ In [] paths -> forall u,
  Permutation (pen u (combine (concat (map (fun p => p ++ [hd (0, 0) p]) paths)) (concat (map path_codes paths)))) (concat (map edges_of paths)).
Proof.
  induction paths as [|p paths IH]; intros H u; [destruct u; reflexivity|]. destruct p as [|v p]; [exfalso; apply H; left; reflexivity|].
  cbn [map concat]. rewrite combine_app2.
  - cbn [hd]. rewrite path_segments. apply Permutation_app; [apply ring_edges|]. apply IH. intros I. apply H. right. exact I.
  - unfold path_codes. rewrite app_length. cbn. rewrite repeat_length, Nat.add_1_r. reflexivity.
Qed.
Lemma polygon_plot_eq paths name label alpha : paths <> [] -> ~ In [] paths ->
  polygon_plot paths name label alpha = Ok (Drawn [Patch (concat (map (fun p => p ++ [hd (0, 0) p]) paths)) (concat (map path_codes paths)) alpha] []
            (match label_of name label with None => [] | Some l => map (fun p => Text (mean2 p) l) paths end)).
Proof. intros N H. unfold polygon_plot. rewrite (close_ok paths H). cbn [bind]. destruct paths; [contradiction|reflexivity]. Qed.
Lemma sum_perm {A} (l l' : list A) f : Permutation l l' -> sum_over l f = sum_over l' f.
Proof. induction 1; rewrite ?sum_cons in *; try lra; reflexivity. Qed.
Lemma sum_concat {A} (ls : list (list A)) f : sum_over (concat ls) f = sum_over ls (fun l => sum_over l f).
Proof. induction ls as [|l ls IH]; [reflexivity|]. cbn [concat]. rewrite sum_app, sum_cons, IH. reflexivity. Qed.
Lemma sum_div {A} (l : list A) f c : sum_over l (fun a => f a / c) = sum_over l f / c.
Proof. induction l as [|a l IH]; [unfold sum_over; cbn; unfold Rdiv; ring|]. rewrite !sum_cons, IH. unfold Rdiv. ring. Qed.
Lemma same_length paths : length (concat (map (fun p : list p2 => p ++ [hd (0, 0) p]) paths)) = length (concat (map path_codes paths)).
Proof.
  induction paths as [|p paths IH]; [reflexivity|]. cbn [map concat]. rewrite (app_length (path_codes p)), <- IH, (app_length (p ++ _)), app_length.
  unfold path_codes. cbn [length]. rewrite repeat_length. unfold p2. lia.
Qed.
Lemma outline paths name label alpha : paths <> [] -> ~ In [] paths ->
  exists d p, polygon_plot paths name label alpha = Ok d /\ patches d = [p] /\ circles d = [] /\ p_alpha p = alpha /\ length (p_vertices p) = length (p_codes p) /\
  Permutation (segments p) (concat (map edges_of paths)) /\ enclosed (segments p) = sum_over paths (fun q => signed_area q).
Proof.
  intros N H. rewrite (polygon_plot_eq paths name label alpha N H). eexists. eexists. split; [reflexivity|]. split; [reflexivity|]. split; [reflexivity|]. split; [reflexivity|].
  assert (P : Permutation (pen None (combine (concat (map (fun p => p ++ [hd (0, 0) p]) paths)) (concat (map path_codes paths)))) (concat (map edges_of paths))) by (apply all_segments, H).
  split; [|split].
  - apply same_length.
  - exact P.
  - unfold enclosed, segments. cbn [p_vertices p_codes]. rewrite (sum_perm _ _ _ P), sum_concat, <- sum_div, sum_map.
    reflexivity.
Qed.
(** labels *)
Lemma sum_left_of a b l : sumR (map (left_of a b) l) = (fst b - fst a) * (sumR (map snd l) - INR (length l) * snd a) - (snd b - snd a) * (sumR (map fst l) - INR (length l) * fst a).
Proof. induction l as [|v l IH]; [cbn; ring|]. cbn [map sumR length]. rewrite S_INR. fold sumR in *. rewrite IH. unfold left_of. ring. Qed.
Lemma sumR_nonneg l : (forall x, In x l -> 0 <= x) -> 0 <= sumR l.
Proof. induction l as [|x l IH]; intros H; [cbn; lra|]. change (sumR (x :: l)) with (x + sumR l). pose proof (H x (or_introl eq_refl)). assert (0 <= sumR l) by (apply IH; intros; apply H; right; assumption). lra. Qed.
Lemma sumR_pos l x : (forall y, In y l -> 0 <= y) -> In x l -> 0 < x -> 0 < sumR l.
Proof.
  intros H I P. induction l as [|y l IH]; [destruct I|]. change (sumR (y :: l)) with (y + sumR l).
  destruct I as [->|I].
  - assert (0 <= sumR l) by (apply sumR_nonneg; intros; apply H; right; assumption). lra.
  - pose proof (H y (or_introl eq_refl)). assert (0 < sumR l) by (apply IH; [intros; apply H; right; assumption|exact I]). lra.
Qed.
Lemma third (a b : p2) l : NoDup l -> (3 <= length l)%nat -> exists v, In v l /\ v <> a /\ v <> b.
Proof.
  intros N L.
  assert (Dec : forall x y : p2, {x = y} + {x <> y}).
  { intros [x1 x2] [y1 y2]. destruct (Req_EM_T x1 y1) as [->|E]; [|right; congruence]. destruct (Req_EM_T x2 y2) as [->|E]; [left; reflexivity|right; congruence]. }
  destruct l as [|x [|y [|z l]]]; cbn in L; try lia.
  inversion N as [|? ? N1 N2]; subst. inversion N2 as [|? ? N3 N4]; subst.
  assert (x <> y) by (intros ->; apply N1; left; reflexivity). assert (x <> z) by (intros ->; apply N1; right; left; reflexivity). assert (y <> z) by (intros ->; apply N3; left; reflexivity).
  destruct (Dec x a), (Dec x b), (Dec y a), (Dec y b), (Dec z a), (Dec z b); subst; try congruence;
    first [exists x; split; [left; reflexivity|split; congruence]|exists y; split; [right; left; reflexivity|split; congruence]|exists z; split; [right; right; left; reflexivity|split; congruence]].
Qed.
Lemma mean_interior path : convex path -> interior path (mean2 path).
Proof.
  intros (N & L & C) [a b] He. cbn [fst snd].
  assert (P : 0 < sumR (map (left_of a b) path)).
  { destruct (third a b path N L) as (v & I & Na & Nb). apply (sumR_pos _ (left_of a b v)).
    - intros y Hy. apply in_map_iff in Hy. destruct Hy as (w & <- & Hw). destruct (C (a, b) w He Hw) as [E|[E|E]]; cbn [fst snd] in E; [subst w; unfold left_of; lra|subst w; unfold left_of; lra|lra].
    - apply in_map, I.
    - destruct (C (a, b) v He I) as [E|[E|E]]; cbn [fst snd] in E; [contradiction|contradiction|exact E]. }
  rewrite sum_left_of in P. assert (Q : 0 < INR (length path)) by (apply lt_0_INR; lia).
  apply (Rmult_lt_reg_r (INR (length path))); [exact Q|]. rewrite Rmult_0_l. unfold left_of, mean2. cbn [fst snd].
  replace (((fst b - fst a) * (sumR (map snd path) / INR (length path) - snd a) - (snd b - snd a) * (sumR (map fst path) / INR (length path) - fst a)) * INR (length path))
    with ((fst b - fst a) * (sumR (map snd path) - INR (length path) * snd a) - (snd b - snd a) * (sumR (map fst path) - INR (length path) * fst a)) by (field; lra). exact P.
Qed.
Lemma polygon_labels paths name label alpha d : polygon_plot paths name label alpha = Ok d ->
  texts d = match label_of name label with None => [] | Some l => map (fun p => Text (mean2 p) l) paths end.
Proof. unfold polygon_plot. destruct (collect _) as [[|c cs]|]; cbn [bind]; intros H; try discriminate H. injection H as <-. reflexivity. Qed.
Lemma disc_area a : 0 <= a -> exists w, diameter a = Some w /\ 0 <= w /\ PI * (w / 2) ^ 2 = a.
Proof.
  intros H. unfold diameter. destruct (Rlt_dec a 0); [lra|]. eexists. split; [reflexivity|]. pose proof PI_RGT_0 as P. pose proof (sqrt_pos (a / PI)). split; [lra|].
  replace ((sqrt (a / PI) * 2 / 2) ^ 2) with (sqrt (a / PI) * sqrt (a / PI)) by field. rewrite sqrt_sqrt; [field; lra|]. apply Rmult_le_pos; [exact H|]. apply Rlt_le, Rinv_0_lt_compat, P.
Qed.
Lemma electrode_plot_ok e label alpha : drawable (egeom e) <-> exists d, electrode_plot e label alpha = Ok d.
Proof.
  unfold electrode_plot. destruct (egeom e) as [pixels n h|paths n h|? ? ? ? ?|h|u]; cbn [drawable].
  - destruct pixels; [split; [intros H; contradiction H; reflexivity|intros [d H]; discriminate H]|]. split; [intros _; eexists; reflexivity|discriminate].
  - split.
    + intros [N H]. rewrite (polygon_plot_eq paths _ _ _ N H). eexists. reflexivity.
    + intros [d H]. split.
      * intros ->. discriminate H.
      * intros I. unfold polygon_plot in H. rewrite (close_bad paths I) in H. discriminate H.
  - split; [intros _; eexists; reflexivity|tauto].
  - split; [intros _; eexists; reflexivity|tauto].
  - split; [intros _; eexists; reflexivity|tauto].
Qed.
Lemma zip_all {E C} (table : list C) : table <> [] -> forall (s : list E) rest, map fst (zip_cycle s table rest) = s.
Proof.
  intros N. induction s as [|e s IH]; intros rest; [reflexivity|]. destruct rest as [|c rest]; cbn.
  - destruct table as [|c t]; [contradiction|]. cbn. f_equal. apply IH.
  - f_equal. apply IH.
Qed.
Lemma system_plot_eq s alpha : system_plot s alpha = collect (map (fun e => electrode_plot e None (Some alpha)) s).
Proof.
  unfold system_plot, plot. rewrite map_map. cbn [fst snd].
  rewrite <- (zip_all set3 ltac:(discriminate) s set3) at 2. rewrite map_map. reflexivity.
Qed.
Lemma collect_in {A} (l : list (res A)) r x : collect l = Ok r -> In x l -> exists a, x = Ok a.
Proof.
  revert r. induction l as [|y l IH]; intros r H I; [destruct I|]. cbn in H. destruct y as [a|]; [|discriminate H]. cbn [bind] in H.
  destruct (collect l) as [r'|] eqn:E; [|discriminate H]. destruct I as [<-|I]; [exists a; reflexivity|]. exact (IH r' eq_refl I).
Qed.
Lemma system_plot_ok s alpha : (forall e, In e s -> drawable (egeom e)) <-> exists l, system_plot s alpha = Ok l.
Proof.
  rewrite system_plot_eq. split.
  - intros H. apply collect_all. intros x I. apply in_map_iff in I. destruct I as (e & <- & I). apply electrode_plot_ok, H, I.
  - intros [l H] e I. apply (electrode_plot_ok e None (Some alpha)). apply (collect_in _ l _ H). apply (in_map (fun e => electrode_plot e None (Some alpha))), I.
Qed.

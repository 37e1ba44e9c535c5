From Coq Require Import Ascii Permutation.
From Verif Require Import Base ModelExpr ModelField ModelGeom ModelTools SpecField SpecPoly SpecTools ProofPoly2 ProofPoly3.
Open Scope R_scope.
Notation length := List.length.

(** ** paths_to_mesh *)
Lemma map_seq_shift {A} (f : nat -> A) a n : map f (seq a n) = map (fun k => f (a + k)%nat) (seq 0 n).
Proof. revert f a. induction n as [|n IH]; intros f a; [reflexivity|]. cbn [seq map]. rewrite Nat.add_0_r. f_equal. rewrite IH, (IH (fun k => f (a + k)%nat) 1%nat). apply map_ext. intros k. f_equal. lia. Qed.
Lemma combine_map {A B C} (f : A -> B) (g : A -> C) l : combine (map f l) (map g l) = map (fun x => (f x, g x)) l.
Proof. induction l as [|x l IH]; [reflexivity|]. cbn. now rewrite IH. Qed.
Lemma map_const_repeat {A B} (c : B) (l : list A) : map (fun _ => c) l = repeat c (length l).
Proof. induction l as [|x l IH]; [reflexivity|]. cbn. now rewrite IH. Qed.
Lemma ring_eq n m : combine (roll_right (map (fun k => n + k)%nat (seq 0 m)) 0%nat) (map (fun k => n + k)%nat (seq 0 m)) = ring_of n m.
Proof.
  destruct m as [|m]; [reflexivity|].
  assert (R : roll_right (map (fun k => n + k)%nat (seq 0 (S m))) 0%nat = (n + m)%nat :: map (fun k => n + k)%nat (seq 0 m)).
  { rewrite seq_S, map_app. cbn [map Nat.add]. unfold roll_right. rewrite last_last, removelast_last. destruct (map _ (seq 0 m)); reflexivity. }
  rewrite R. unfold ring_of. cbn [seq map combine]. f_equal.
  - f_equal. rewrite Nat.mod_small by lia. lia.
  - rewrite !(map_seq_shift _ 1 m), combine_map. apply map_ext_in. intros k Hk. apply in_seq in Hk. f_equal. f_equal.
    replace (1 + k + S m - 1)%nat with (k + 1 * S m)%nat by lia. rewrite Nat.mod_add, Nat.mod_small by lia. reflexivity.
Qed.
Lemma combine_snoc {A B} (a : list A) (b : list B) x y : length a = length b -> combine (a ++ [x]) (b ++ [y]) = combine a b ++ [(x, y)].
Proof. revert b. induction a as [|u a IH]; intros [|v b] H; try discriminate H; [reflexivity|]. cbn. rewrite IH by (cbn in H; lia). reflexivity. Qed.
Lemma offset_snoc ps p i : (i <= length ps)%nat -> offset (ps ++ [p]) i = offset ps i.
Proof. intros H. unfold offset. rewrite firstn_app. replace (i - length ps)%nat with 0%nat by lia. now rewrite app_nil_r. Qed.
Lemma mesh_fold paths : fold_left mesh_segments (combine (seq 0 (length paths)) paths) (0, [], [])%nat =
  (length (concat paths), flat_map (fun i => ring_of (offset paths i) (length (nth i paths []))) (seq 0 (length paths)),
   flat_map (fun i => repeat (i + 2)%nat (length (nth i paths []))) (seq 0 (length paths))).
Proof.
  induction paths as [|p ps IH] using rev_ind; [reflexivity|]. rewrite app_length. cbn [length]. rewrite Nat.add_1_r, seq_S, combine_snoc by now rewrite seq_length.
  rewrite fold_left_app, IH. cbn [fold_left mesh_segments fst snd Nat.add]. rewrite !flat_map_app. cbn [flat_map]. rewrite !app_nil_r.
  rewrite concat_app, app_length. cbn [concat]. rewrite app_nil_r.
  assert (E : forall i, In i (seq 0 (length ps)) -> nth i (ps ++ [p]) [] = nth i ps []) by (intros i Hi; apply in_seq in Hi; apply app_nth1; lia).
  assert (L : nth (length ps) (ps ++ [p]) [] = p) by (rewrite app_nth2, Nat.sub_diag by lia; reflexivity).
  rewrite L. f_equal; [f_equal; f_equal|f_equal].
  - rewrite !flat_map_concat_map. f_equal. apply map_ext_in. intros i Hi. rewrite E by exact Hi. rewrite offset_snoc by (apply in_seq in Hi; lia). reflexivity.
  - rewrite ring_eq. f_equal. rewrite offset_snoc by lia. unfold offset. now rewrite firstn_all.
  - rewrite !flat_map_concat_map. f_equal. apply map_ext_in. intros i Hi. now rewrite E.
  - rewrite map_map, map_const_repeat, seq_length. reflexivity.
Qed.
Lemma concat_nth (paths : list (list p2)) i k p q : nth_error paths i = Some p -> nth_error p k = Some q ->
  nth_error (concat paths) (offset paths i + k) = Some q.
Proof.
  revert i. induction paths as [|a ps IH]; intros [|i] H K; try discriminate H.
  - cbn in H. injection H as ->. cbn [offset firstn concat length Nat.add]. rewrite nth_error_app1; [exact K|apply nth_error_Some; congruence].
  - cbn [nth_error] in H. unfold offset. cbn [firstn concat]. rewrite app_length, <- Nat.add_assoc, nth_error_app2 by lia.
    replace (length a + (length (concat (firstn i ps)) + k) - length a)%nat with (offset ps i + k)%nat by (unfold offset; lia). apply (IH i H K).
Qed.
Lemma mesh_spec paths : paths <> [] -> exists points segments markers, paths_to_mesh paths = Ok (points, segments, markers) /\
  segments = flat_map (fun i => ring_of (offset paths i) (length (nth i paths []))) (seq 0 (length paths)) /\
  markers = flat_map (fun i => repeat (i + 2)%nat (length (nth i paths []))) (seq 0 (length paths)) /\
  length points = length segments /\
  forall i k p q, nth_error paths i = Some p -> nth_error p k = Some q -> nth_error points (offset paths i + k) = Some q.
Proof.
  intros H. unfold paths_to_mesh. rewrite mesh_fold. destruct paths as [|a ps]; [contradiction|]. do 3 eexists. split; [reflexivity|]. split; [reflexivity|]. split; [reflexivity|].
  split; [|apply concat_nth].
  generalize (a :: ps). intros l. clear.
  rewrite flat_map_concat_map.
  assert (K : forall n (l' : list (list p2)), length (concat l') = length (concat (map (fun i => ring_of n (length (nth i l' []))) (seq 0 (length l'))))).
  { intros n l'. induction l' as [|p l' IH] using rev_ind; [reflexivity|]. rewrite app_length. cbn [length]. rewrite Nat.add_1_r, seq_S, map_app, !concat_app, !app_length. cbn [map concat Nat.add].
    rewrite (app_nth2 l') by lia. rewrite Nat.sub_diag. cbn [nth]. rewrite !app_nil_r. unfold ring_of at 2. rewrite map_length, seq_length. f_equal. rewrite IH. f_equal. f_equal. apply map_ext_in. intros i Hi. apply in_seq in Hi. now rewrite app_nth1 by lia. }
  rewrite (K 0%nat). clear K. generalize (seq 0 (length l)). intros s. induction s as [|i s IH]; [reflexivity|]. cbn [map concat]. rewrite !app_length, IH. unfold ring_of. now rewrite !map_length.
Qed.

(** ** transformed_copy *)
Lemma affine_area (a b c d e f : R) path :
  signed_area (map (fun p : p2 => (a * fst p + b * snd p + c, d * fst p + e * snd p + f)) path) = (a * e - b * d) * signed_area path.
Proof.
  unfold signed_area. fold (path_sum cross2 path). set (T := fun p : p2 => _). fold (path_sum cross2 (map T path)).
  assert (E : path_sum cross2 (map T path) = (a * e - b * d) * path_sum cross2 path); [|rewrite E; field].
  destruct path as [|v l]; [unfold path_sum, sum_over, edges_of; cbn; ring|]. cbn [map]. unfold path_sum. rewrite !edges_chain.
  assert (K : forall u l w, chain cross2 (T u) (map T l ++ [T w]) = (a * e - b * d) * chain cross2 u (l ++ [w])
      + (fst (T u) * f - c * snd (T u)) - (fst (T w) * f - c * snd (T w))).
  { clear. intros u l. revert u. induction l as [|x l IH]; intros u w.
    - cbn [map app chain]. unfold cross2, T. cbn [fst snd]. ring.
    - cbn [map app chain]. rewrite IH. unfold cross2, T. cbn [fst snd]. ring. }
  transitivity (chain cross2 (T v) (map T l ++ [T v])); [reflexivity|]. rewrite K. ring.
Qed.
Lemma Forall2_rev {A B} (P : A -> B -> Prop) l m : Forall2 P l m -> Forall2 P (rev l) (rev m).
Proof. induction 1 as [|x y l m H K IH]; [constructor|]. cbn. apply Forall2_app; [exact IH|]. constructor; [exact H|constructor]. Qed.
Lemma copies ts path :
  Forall2 (fun (t : (nat -> nat -> R) * bool) q => Forall2 (image_of (fst t)) (if snd t then path else rev path) q /\
    signed_area q = (if snd t then 1 else -1) * (fst t 0%nat 0%nat * fst t 1%nat 1%nat - fst t 0%nat 1%nat * fst t 1%nat 0%nat) * signed_area path)
  ts (transformed_copy ts path).
Proof.
  induction ts as [|[t s] ts IH]; [constructor|]. unfold transformed_copy. cbn [map]. constructor; [|exact IH]. cbn [fst snd].
  set (q := map _ path).
  assert (P : Forall2 (image_of t) path q).
  { unfold q. clear. induction path as [|p l IHl]; constructor; [|exact IHl]. split; cbn [fst snd]; ring. }
  assert (A : signed_area q = (t 0%nat 0%nat * t 1%nat 1%nat - t 0%nat 1%nat * t 1%nat 0%nat) * signed_area path).
  { rewrite <- (affine_area _ _ (t 0%nat 3%nat) _ _ (t 1%nat 3%nat)). f_equal. unfold q. apply map_ext. intros p. f_equal; ring. }
  destruct s; split; [exact P|rewrite A; ring|apply Forall2_rev; exact P|].
  unfold signed_area at 1. fold (path_sum cross2 (rev q)). rewrite (path_sum_rev cross2 cross_swap). unfold signed_area in A at 1. fold (path_sum cross2 q) in A. lra.
Qed.

(** ** adapt_mesh *)
Lemma collect_forall {A B} (f : A -> res B) l r : collect_res (map f l) = Ok r -> Forall2 (fun a b => f a = Ok b) l r.
Proof.
  revert r. induction l as [|a l IH]; intros r H; cbn [map collect_res] in H; [injection H as <-; constructor|].
  destruct (f a) as [b|] eqn:E; [|discriminate]. cbn [bind] in H. destruct (collect_res (map f l)) as [bs|]; [|discriminate]. cbn [bind] in H. injection H as <-. constructor; [exact E|apply IH; reflexivity].
Qed.
Lemma py_index_nat {A} (l : list A) i a : py_index l (Z.of_nat i) = Ok a -> nth_error l i = Some a.
Proof. unfold py_index. destruct (Z.ltb_spec (Z.of_nat i) 0) as [|_]; [lia|]. destruct (Z.ltb_spec (Z.of_nat i) 0) as [|_]; [lia|]. rewrite Nat2Z.id. destruct (nth_error l i); [intros [= ->]; reflexivity|discriminate]. Qed.
Lemma corners_spec m t p : corners m t = Ok p -> triangle_of m t p.
Proof.
  destruct t as [[a b] c]. unfold corners. destruct (py_index (mpoints m) (Z.of_nat a)) as [x|] eqn:A; [|discriminate]. cbn [bind].
  destruct (py_index (mpoints m) (Z.of_nat b)) as [y|] eqn:B; [|discriminate]. cbn [bind]. destruct (py_index (mpoints m) (Z.of_nat c)) as [z|] eqn:C; [|discriminate]. cbn [bind]. intros [= <-].
  exists x, y, z. cbn [fst snd]. auto using py_index_nat.
Qed.
Lemma max_change_spec pots p nb m th : max_change pots p nb = Ok m -> (th < m <-> jumps th pots p nb).
Proof.
  destruct nb as [[a b] c]. unfold max_change. destruct (py_index pots a) as [x|] eqn:A; [|discriminate]. cbn [bind].
  destruct (py_index pots b) as [y|] eqn:B; [|discriminate]. cbn [bind]. destruct (py_index pots c) as [z|] eqn:C; [|discriminate]. cbn [bind]. intros [= <-]. split.
  - intros H. unfold Rmax in H. destruct (Rle_dec (Rabs (y - p)) (Rabs (z - p))); destruct (Rle_dec (Rabs (x - p)) _) in H;
      first [exists a, x; unfold neighbor_of; cbn [fst snd]; now auto | idtac];
      first [exists b, y; unfold neighbor_of; cbn [fst snd]; now auto | exists c, z; unfold neighbor_of; cbn [fst snd]; now auto].
  - intros (j & w & N & W & H). unfold neighbor_of in N. cbn [fst snd] in N. pose proof (Rmax_l (Rabs (x - p)) (Rmax (Rabs (y - p)) (Rabs (z - p)))). pose proof (Rmax_r (Rabs (x - p)) (Rmax (Rabs (y - p)) (Rabs (z - p)))).
    pose proof (Rmax_l (Rabs (y - p)) (Rabs (z - p))). pose proof (Rmax_r (Rabs (y - p)) (Rabs (z - p))).
    destruct N as [->|[->| ->]]; [rewrite A in W|rewrite B in W|rewrite C in W]; injection W as <-; lra.
Qed.
Lemma combine_nth_error {A B} (a : list A) (b : list B) i x y : nth_error a i = Some x -> nth_error b i = Some y -> nth_error (combine a b) i = Some (x, y).
Proof. revert b i. induction a as [|u a IH]; intros b i H K; [destruct i; discriminate|]. destruct b as [|v b]; [destruct i; discriminate|]. destruct i as [|i]; cbn in *; [congruence|]. now apply IH. Qed.
Lemma Forall2_nth_error {A B} (P : A -> B -> Prop) l m i a b : Forall2 P l m -> nth_error l i = Some a -> nth_error m i = Some b -> P a b.
Proof. intros H. revert i. induction H as [|x y l m H K IH]; intros [|i] A' B'; try discriminate; cbn in *; [congruence|]. eapply IH; eassumption. Qed.
Lemma Forall2_len {A B} (P : A -> B -> Prop) l m : Forall2 P l m -> length l = length m.
Proof. induction 1; cbn; congruence. Qed.
Lemma new_areas_spec th up down areas pots nbs ta : new_areas th up down areas pots nbs = Ok ta -> areas_rule th up down pots areas nbs ta.
Proof.
  unfold new_areas. destruct (_ && _)%bool eqn:E; cbn [negb]; [|discriminate]. apply andb_true_iff in E as [E1 E2]. apply Nat.eqb_eq in E1, E2. intros H. apply collect_forall in H.
  split; [exact E1|]. split; [exact E2|]. split.
  { rewrite <- (Forall2_len _ _ _ H), !combine_length. lia. }
  intros i p a nb t Hp Ha Hn Ht.
  pose proof (Forall2_nth_error _ _ _ i _ _ H (combine_nth_error _ _ i _ _ (combine_nth_error _ _ i _ _ Hp Ha) Hn) Ht) as K. cbn [fst snd] in K.
  destruct (max_change pots p nb) as [m|] eqn:M; [|discriminate]. cbn [bind] in K. injection K as <-. pose proof (max_change_spec _ _ _ _ th M) as J.
  destruct (Rlt_dec th m) as [L|L]; split; intros Q; try reflexivity; exfalso; tauto.
Qed.
Lemma adapt_loop_spec tri opt el fixed th up down nmax fuel : forall args svc r,
  adapt_loop tri opt el fixed th up down nmax fuel args svc = Some (Ok r) -> refinement tri opt el fixed th up down nmax args svc r.
Proof.
  induction fuel as [|fuel IH]; intros args svc r H; [discriminate|]. cbn [adapt_loop] in H.
  destruct (Nat.ltb_spec nmax (length (triangles (tri args)))) as [L|L]; [injection H as <-; now constructor|].
  destruct (collect_res _) as [paths|] eqn:Ep; [|discriminate]. apply collect_forall in Ep.
  destruct (opt _) as [[v c]|] eqn:Eo; [|discriminate]. destruct (new_areas _ _ _ _ _ _) as [ta|] eqn:Ea; [|discriminate]. apply new_areas_spec in Ea.
  eapply refines; [exact L| |exact Eo| |].
  - clear -Ep. induction Ep; constructor; auto using corners_spec.
  - rewrite (map_ext _ signed_area) in Ea by (intros p; apply ac_area). exact Ea.
  - apply IH. exact H.
Qed.
Lemma adapt_spec tri opt el fixed th up down nmax variable fuel r :
  adapt_mesh tri opt el fixed th up down nmax variable fuel = Some (Ok r) ->
  exists m, paths_to_mesh variable = Ok m /\ refinement tri opt el fixed th up down nmax (Initial m) None r.
Proof. unfold adapt_mesh. destruct (paths_to_mesh variable) as [m|]; [|discriminate]. intros H. exists m. split; [reflexivity|]. now apply adapt_loop_spec in H. Qed.
Lemma refinement_size tri opt el fixed th up down nmax args svc r : refinement tri opt el fixed th up down nmax args svc r ->
  r = svc \/ exists args' paths v c, (length (triangles (tri args')) <= nmax)%nat /\ Forall2 (triangle_of (tri args')) (triangles (tri args')) paths /\
    opt (fixed ++ map el paths) = Ok (v, c) /\ r = Some (fixed ++ map el paths, v, c).
Proof.
  induction 1 as [args svc H|args svc paths v c ta r H1 H2 H3 H4 H5 IH]; [auto|]. destruct IH as [->|IH]; [|right; exact IH]. right. exists args, paths, v, c. auto.
Qed.
Lemma adapt_size tri opt el fixed th up down nmax variable fuel s v c :
  adapt_mesh tri opt el fixed th up down nmax variable fuel = Some (Ok (Some (s, v, c))) ->
  exists args paths, (length (triangles (tri args)) <= nmax)%nat /\ Forall2 (triangle_of (tri args)) (triangles (tri args)) paths /\
    s = fixed ++ map el paths /\ opt s = Ok (v, c) /\ length s = (length fixed + length (triangles (tri args)))%nat.
Proof.
  intros H. apply adapt_spec in H as (m & _ & H). apply refinement_size in H as [H|(args & paths & v' & c' & H1 & H2 & H3 & H4)]; [discriminate|].
  injection H4 as -> -> ->. exists args, paths. split; [exact H1|]. split; [exact H2|]. split; [reflexivity|]. split; [exact H3|].
  rewrite app_length, map_length, (Forall2_len _ _ _ H2). reflexivity.
Qed.
Lemma adapt_none tri opt el fixed th up down nmax variable fuel m : paths_to_mesh variable = Ok m -> (nmax < length (triangles (tri (Initial m))))%nat ->
  adapt_mesh tri opt el fixed th up down nmax variable (S fuel) = Some (Ok None).
Proof. intros E H. unfold adapt_mesh. rewrite E. cbn [adapt_loop]. apply Nat.ltb_lt in H. now rewrite H. Qed.

(** ** shaped *)
Lemma prod_app s t : prod (s ++ t) = (prod s * prod t)%nat.
Proof. unfold prod. induction s as [|n s IH]; cbn [app fold_right]; [lia|]. rewrite IH. lia. Qed.
Lemma position_app s t idx idx' : index_of s idx -> position (s ++ t) (idx ++ idx') = (position s idx * prod t + position t idx')%nat.
Proof.
  intros H. induction H as [|i n idx s L H IH]; [reflexivity|]. cbn [app position]. rewrite IH, prod_app. lia.
Qed.
Lemma position_lt s idx : index_of s idx -> (position s idx < prod s)%nat.
Proof.
  intros H. induction H as [|i n idx s L H IH]; [cbn; lia|]. cbn [position]. change (prod (n :: s)) with (n * prod s)%nat. nia.
Qed.
Lemma concat_block {A} m (ls : list (list A)) p q d : Forall (fun l => length l = m) ls -> (p < length ls)%nat -> (q < m)%nat ->
  nth (p * m + q) (concat ls) d = nth q (nth p ls []) d.
Proof.
  intros H. revert p. induction H as [|l ls L H IH]; intros p Hp Hq; cbn [length] in Hp; [lia|]. destruct p as [|p].
  - cbn [concat nth Nat.mul Nat.add]. apply app_nth1. lia.
  - cbn [concat nth]. rewrite app_nth2 by lia. rewrite L. replace (S p * m + q - m)%nat with (p * m + q)%nat by lia. apply IH; [lia|exact Hq].
Qed.
Lemma concat_uniform {A} m (ls : list (list A)) : Forall (fun l => length l = m) ls -> length (concat ls) = (length ls * m)%nat.
Proof. induction 1 as [|l ls L H IH]; [reflexivity|]. cbn [concat length]. rewrite app_length, IH, L. lia. Qed.
Lemma shaped_spec func f t n s xyz : pointwise func f t -> ashape xyz = n :: s -> (0 < n)%nat -> s <> [] ->
  exists out, shaped func xyz = Ok out /\ ashape out = s ++ t /\ proper out /\
  forall idx idx', index_of s idx -> index_of t idx' ->
  entry out (idx ++ idx') = entry (f (map (fun i => entry xyz (i :: idx)) (seq 0 n))) idx'.
Proof.
  intros [F1 F2] Hs Hn Ne. destruct xyz as [sh data]. cbn [ashape] in Hs. subst sh. unfold shaped.
  assert (atleast_2d (Array (n :: s) data) = Array (n :: s) data) as -> by (destruct s; [contradiction|reflexivity]).
  cbn [ashape adata]. destruct n as [|n]; [lia|]. rewrite F2. cbn [bind ashape adata tl]. set (N := S n) in *.
  set (rows := columns N (prod s) data). set (vals := map (fun r => adata (f r)) rows).
  assert (Lr : length rows = prod s) by (unfold rows, columns; now rewrite map_length, seq_length).
  assert (U : Forall (fun l => length l = prod t) vals).
  { unfold vals. apply Forall_forall. intros l Hl. apply in_map_iff in Hl as (r & <- & _). destruct (F1 r) as [A B]. unfold proper in B. now rewrite B, A. }
  assert (Lv : length vals = prod s) by (unfold vals; now rewrite map_length).
  rewrite (concat_uniform _ _ U), Lv, prod_app, Nat.eqb_refl. eexists. split; [reflexivity|]. cbn [ashape]. split; [reflexivity|]. split.
  { unfold proper. cbn [ashape adata]. rewrite (concat_uniform _ _ U), Lv, prod_app. reflexivity. }
  intros idx idx' Hi Hi'. unfold entry at 1. cbn [ashape adata]. rewrite (position_app _ _ _ _ Hi).
  assert (Pi := position_lt _ _ Hi). assert (Pi' := position_lt _ _ Hi').
  rewrite (concat_block _ _ _ _ _ U) by (rewrite ?Lv; assumption).
  assert (E : nth (position s idx) rows [] = map (fun i => entry (Array (N :: s) data) (i :: idx)) (seq 0 N)).
  { unfold rows, columns. set (g := fun j => map (fun i => nth (i * prod s + j) data 0) (seq 0 N)).
    rewrite (nth_indep _ [] (g 0%nat)) by now rewrite map_length, seq_length. rewrite (map_nth g), seq_nth by exact Pi. cbn [Nat.add]. unfold g. apply map_ext. intros i. reflexivity. }
  unfold vals. rewrite (nth_indep _ [] (adata (f []))) by (rewrite map_length, Lr; exact Pi).
  rewrite (map_nth (fun r => adata (f r))). rewrite E. unfold entry at 2. destruct (F1 (map (fun i => entry (Array (N :: s) data) (i :: idx)) (seq 0 N))) as [-> _]. reflexivity.
Qed.
(** a single point, a 1-d array, is taken for n points with one coordinate *)
Lemma shaped_1d func f t n data : pointwise func f t -> length data = n ->
  exists out, shaped func (Array [n] data) = Ok out /\ ashape out = n :: t /\
  forall i idx', (i < n)%nat -> index_of t idx' -> entry out (i :: idx') = entry (f [nth i data 0]) idx'.
Proof.
  intros P L. destruct (shaped_spec func f t 1 [n] (Array [1; n]%nat data) P eq_refl) as (out & A & B & _ & C); [lia|discriminate|].
  exists out. split; [exact A|]. split; [exact B|]. intros i idx' Hi Hi'. specialize (C [i] idx'). cbn [app] in C. rewrite C; [|constructor; [exact Hi|constructor]|exact Hi'].
  f_equal. cbn [seq map]. unfold entry. cbn [ashape adata position prod fold_right]. f_equal. f_equal. f_equal. lia.
Qed.
Lemma border : new_areas (1 / 2) 2 2 [1; 1] [0; 1] [(-1, -1, -1); (-1, -1, -1)]%Z = Ok [1 / 2; 1 * 2].
Proof.
  assert (M : forall p, max_change [0; 1] p (-1, -1, -1)%Z = Ok (Rabs (1 - p))).
  { intros p. unfold max_change. assert (py_index [0; 1] (-1) = Ok 1) as -> by reflexivity. cbn [bind]. rewrite (Rmax_left (Rabs (1 - p)) (Rabs (1 - p))) by apply Rle_refl. rewrite Rmax_left by apply Rle_refl. reflexivity. }
  unfold new_areas. cbn [length Nat.eqb andb negb combine map fst snd]. rewrite !M. cbn [bind collect_res].
  replace (1 - 0) with 1 by ring. replace (1 - 1) with 0 by ring. rewrite Rabs_R1, Rabs_R0.
  destruct (Rlt_dec (1 / 2) 1); [|lra]. destruct (Rlt_dec (1 / 2) 0); [lra|]. reflexivity.
Qed.
Lemma nodup_map {A B} (f : A -> B) l : NoDup l -> (forall a b, In a l -> In b l -> f a = f b -> a = b) -> NoDup (map f l).
Proof.
  induction 1 as [|a l N _ IH]; intros H; cbn [map]; constructor.
  - intros K. apply in_map_iff in K as (b & E & Hb). apply N. rewrite <- (H b a); [exact Hb|now right|now left|exact E].
  - apply IH. intros b c Hb Hc. apply H; now right.
Qed.
Lemma ring_closed off m : NoDup (map fst (ring_of off m)) /\ NoDup (map snd (ring_of off m)) /\
  forall v, (In v (map fst (ring_of off m)) <-> (off <= v < off + m)%nat) /\ (In v (map snd (ring_of off m)) <-> (off <= v < off + m)%nat).
Proof.
  unfold ring_of. rewrite !map_map. cbn [fst snd]. split; [|split].
  - apply nodup_map; [apply seq_NoDup|]. intros i j Hi Hj E. apply in_seq in Hi, Hj.
    assert (Mi : forall k, (k < m)%nat -> ((k + m - 1) mod m = if k =? 0 then m - 1 else k - 1)%nat).
    { intros k Hk. destruct (Nat.eqb_spec k 0) as [->|]; [apply Nat.mod_small; lia|]. replace (k + m - 1)%nat with (k - 1 + 1 * m)%nat by lia. rewrite Nat.mod_add by lia. apply Nat.mod_small. lia. }
    rewrite !Mi in E by lia. destruct (Nat.eqb_spec i 0), (Nat.eqb_spec j 0); lia.
  - apply nodup_map; [apply seq_NoDup|intros i j _ _ H; lia].
  - intros v. split; rewrite in_map_iff; split.
    + intros (k & <- & Hk). apply in_seq in Hk. pose proof (Nat.mod_upper_bound (k + m - 1) m). lia.
    + intros H. exists ((v - off + 1) mod m)%nat. split; [|apply in_seq; pose proof (Nat.mod_upper_bound (v - off + 1) m); lia].
      destruct (Nat.eq_dec (v - off + 1) m) as [E|D].
      * rewrite E, Nat.mod_same by lia. rewrite Nat.mod_small by lia. lia.
      * rewrite (Nat.mod_small (v - off + 1)) by lia. replace (v - off + 1 + m - 1)%nat with (v - off + 1 * m)%nat by lia. rewrite Nat.mod_add, Nat.mod_small by lia. lia.
    + intros (k & <- & Hk). apply in_seq in Hk. lia.
    + intros H. exists (v - off)%nat. split; [lia|apply in_seq; lia].
Qed.

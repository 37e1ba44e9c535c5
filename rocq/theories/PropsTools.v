(** paths_to_mesh, transformed_copy, adapt_mesh, Adjust, xic_to_list and shaped. *)
From Coq Require Import Ascii.
From Verif Require Import Base ModelExpr ModelField ModelGeom ModelTools SpecField SpecPoly SpecTools ProofTools ProofAdjust ProofMove ProofXic.
Open Scope R_scope.
Notation length := List.length.

(** C66: path i gets its points in order, one closed ring of segments over
    them, and the marker i + 2 *)
Theorem C66_mesh_input paths : paths <> [] -> exists points segments markers, paths_to_mesh paths = Ok (points, segments, markers) /\
  segments = flat_map (fun i => ring_of (offset paths i) (length (nth i paths []))) (seq 0 (length paths)) /\
  markers = flat_map (fun i => repeat (i + 2)%nat (length (nth i paths []))) (seq 0 (length paths)) /\
  length points = length segments /\
  forall i k p q, nth_error paths i = Some p -> nth_error p k = Some q -> nth_error points (offset paths i + k) = Some q.
Proof. exact (mesh_spec paths). Qed.
Print Assumptions C66_mesh_input.
Example C66_triangle_and_square :
  paths_to_mesh [[(0, 0); (1, 0); (0, 1)]; [(2, 0); (3, 0); (3, 1); (2, 1)]] =
  Ok ([(0, 0); (1, 0); (0, 1); (2, 0); (3, 0); (3, 1); (2, 1)],
      [(2, 0); (0, 1); (1, 2); (6, 3); (3, 4); (4, 5); (5, 6)]%nat, [2; 2; 2; 3; 3; 3; 3]%nat).
Proof. reflexivity. Qed.
(** each point of a path begins one segment of its ring and ends one *)
Theorem C66_ring_closed off m : NoDup (map fst (ring_of off m)) /\ NoDup (map snd (ring_of off m)) /\
  forall v, (In v (map fst (ring_of off m)) <-> (off <= v < off + m)%nat) /\ (In v (map snd (ring_of off m)) <-> (off <= v < off + m)%nat).
Proof. exact (ring_closed off m). Qed.
Print Assumptions C66_ring_closed.

(** C67: each round uses a mesh of at most nmax triangles, optimizes their
    potentials, and asks for smaller triangles exactly where a neighbor's
    potential differs by more than the threshold *)
Theorem C67_refinement_partial triangulate optimize electrode_of fixed threshold up down nmax variable fuel r :
  adapt_mesh triangulate optimize electrode_of fixed threshold up down nmax variable fuel = Some (Ok r) ->
  exists m, paths_to_mesh variable = Ok m /\ refinement triangulate optimize electrode_of fixed threshold up down nmax (Initial m) None r.
Proof. exact (adapt_spec triangulate optimize electrode_of fixed threshold up down nmax variable fuel r). Qed.
Print Assumptions C67_refinement_partial.
Theorem C67_size triangulate optimize electrode_of fixed threshold up down nmax variable fuel s v c :
  adapt_mesh triangulate optimize electrode_of fixed threshold up down nmax variable fuel = Some (Ok (Some (s, v, c))) ->
  exists args paths, (length (triangles (triangulate args)) <= nmax)%nat /\ Forall2 (triangle_of (triangulate args)) (triangles (triangulate args)) paths /\
    s = fixed ++ map electrode_of paths /\ optimize s = Ok (v, c) /\ length s = (length fixed + length (triangles (triangulate args)))%nat.
Proof. exact (adapt_size triangulate optimize electrode_of fixed threshold up down nmax variable fuel s v c). Qed.
Print Assumptions C67_size.
(** two triangles of one square, then too many *)
Definition square_mesh : mesh := Mesh [(0, 0); (1, 0); (1, 1); (0, 1)] [(0, 1, 2); (0, 2, 3)]%nat [(1, -1, -1); (0, -1, -1)]%Z.
Example C67_two_rounds : exists s v,
  adapt_mesh (fun a => match a with Initial _ => square_mesh | Refined _ _ => Mesh [] (repeat (0, 0, 0)%nat 9) [] end)
    (fun s => Ok ([0; 1], 5)) (fun p => Electrode "" 0 0 (EPolygon [p] 0 1)) [] (1 / 2) 2 2 5 [[(0, 0); (1, 0); (1, 1); (0, 1)]] 2
  = Some (Ok (Some (s, v, 5))) /\ length s = 2%nat.
Proof.
  do 2 eexists. split; [|]. { unfold adapt_mesh, paths_to_mesh. cbn [fold_left combine seq length map mesh_segments]. cbn. unfold max_change, py_index. cbn. repeat destruct (Rlt_dec _ _); reflexivity. }
  reflexivity.
Qed.
(** Refuted: an edge on the border (neighbor -1) is compared with the last
    triangle of the mesh, so a triangle without any neighbor is refined *)
Theorem C67_refuted_border : new_areas (1 / 2) 2 2 [1; 1] [0; 1] [(-1, -1, -1); (-1, -1, -1)]%Z = Ok [1 / 2; 1 * 2].
Proof. exact border. Qed.
Print Assumptions C67_refuted_border.
(** Refuted: if the first mesh is too large there is no result *)
Theorem C67_refuted_none triangulate optimize electrode_of fixed threshold up down nmax variable fuel m :
  paths_to_mesh variable = Ok m -> (nmax < length (triangles (triangulate (Initial m))))%nat ->
  adapt_mesh triangulate optimize electrode_of fixed threshold up down nmax variable (S fuel) = Some (Ok None).
Proof. exact (adapt_none triangulate optimize electrode_of fixed threshold up down nmax variable fuel m). Qed.
Print Assumptions C67_refuted_none.

(** C95 *)
Theorem C95_transformed_copy ts path :
  Forall2 (fun (t : (nat -> nat -> R) * bool) q => Forall2 (image_of (fst t)) (if snd t then path else rev path) q /\
    signed_area q = (if snd t then 1 else -1) * (fst t 0%nat 0%nat * fst t 1%nat 1%nat - fst t 0%nat 1%nat * fst t 1%nat 0%nat) * signed_area path)
  ts (transformed_copy ts path).
Proof. exact (copies ts path). Qed.
Print Assumptions C95_transformed_copy.
(** a triangle and its mirror image, reversed: the areas agree *)
Example C95_mirror : map signed_area (transformed_copy
  [((fun i j => if Nat.eqb i j then 1 else 0), true); ((fun i j => if Nat.eqb i j then (if Nat.eqb i 0 then -1 else 1) else 0), false)]
  [(0, 0); (1, 0); (0, 1)]) = [1 / 2; 1 / 2].
Proof. unfold transformed_copy, signed_area, edges_of, sum_over, cross2. cbn. f_equal; [field|f_equal; field]. Qed.

(** C68 *)
Theorem C68_lengths {X C} s conf (xms : list X) (curves : list C) l : NoDup (map ename s) ->
  Forall (fun cs => good_config (map ename s) (fst cs)) l -> first_complete (map ename s) l ->
  exists a, calls l (adjust_init s conf xms curves) = (a, Ok tt) /\ map fst (avolts a) = map ename s /\ forall n h, history a n h -> length h = saved l.
Proof. exact (lengths s conf xms curves l). Qed.
Print Assumptions C68_lengths.
Theorem C68_values_partial {X C} s conf (xms : list X) (curves : list C) l : NoDup (map ename s) ->
  Forall (fun cs => good_config (map ename s) (fst cs)) l -> first_complete (map ename s) l ->
  Forall (fun cs => snd cs = true) l -> l <> [] ->
  exists a, calls l (adjust_init s conf xms curves) = (a, Ok tt) /\ Forall2 (fun e n => ename e = n) (asys a) (map ename s) /\
  forall n h, history a n h -> exists h' v, h = h' ++ [v] /\ dc_of (asys a) n = Some v.
Proof. exact (values s conf xms curves l). Qed.
Print Assumptions C68_values_partial.
Definition two : list electrode := [Electrode "a" 0 0 (ECover 1); Electrode "b" 0 0 (ECover 2)].
Example C68_hypotheses : let l := [([("b", 1); ("a", 2)]%string, true); ([("a", 3)]%string, true)] in
  NoDup (map ename two) /\ Forall (fun cs => good_config (map ename two) (fst cs)) l /\ first_complete (map ename two) l /\
  Forall (fun cs => snd cs = true) l /\ avolts (fst (calls l (adjust_init two [] [0] [0]))) = [("a", [2; 3]); ("b", [1; 1])]%string.
Proof.
  cbv zeta. split; [repeat constructor; cbn; intuition congruence|]. split.
  { constructor; [|constructor; [|constructor]].
    - split; [constructor; [cbn; intuition congruence|]; constructor; [cbn; tauto|constructor]|intros n; cbn; tauto].
    - split; [constructor; [cbn; tauto|constructor]|intros n; cbn; tauto]. }
  split; [intros n; cbn; tauto|]. split; [repeat constructor|]. reflexivity.
Qed.
(** Refuted: __init__ leaves the histories empty, so a first saved call that
    misses an electrode fails, with the voltages already changed *)
Theorem C68_refuted_partial_first {X C} s conf (xms : list X) (curves : list C) config n : NoDup (map ename s) -> good_config (map ename s) config ->
  In n (map ename s) -> ~ In n (map fst config) ->
  exists a, set_volts config true (adjust_init s conf xms curves) = (a, Raise IndexError) /\
  forall m v, In (m, v) config -> dc_of (asys a) m = Some v.
Proof. exact (partial_first s conf xms curves config n). Qed.
Print Assumptions C68_refuted_partial_first.
(** Refuted: after a call without save the last entries are not the voltages *)
Theorem C68_refuted_unsaved : exists l a h, calls l (adjust_init two [] [0] [0]) = (a, Ok tt) /\ history a "a" (h ++ [2]) /\ dc_of (asys a) "a" = Some 3.
Proof.
  exists [([("b", 1); ("a", 2)]%string, true); ([("a", 3)]%string, false)]. do 2 eexists. split; [reflexivity|]. split; [left|]; reflexivity.
Qed.
Print Assumptions C68_refuted_unsaved.

(** C69: refuted, rejecting always fails and the proposed voltages stay *)
Theorem C69_refuted_reject {X C} deltaV minimum modes (xm0 : X) (a a' : adjust X C) dvs n dv v : ready a -> length dvs = length (aconf a) ->
  propose_move minimum modes xm0 (Ok dvs) a = (a', Ok tt) -> moved_by a dvs n dv -> last_accepted a n v ->
  next_step deltaV false a' = (a', Raise AttributeError) /\ dc_of (asys a') n = Some (v + dv).
Proof. exact (reject_stays deltaV minimum modes xm0 a a' dvs n dv v). Qed.
Print Assumptions C69_refuted_reject.
(** what holds: accepting a proposal adds it to the last accepted voltages *)
Theorem C69_accept_partial {X C} (a : adjust X C) dvs x c : ready a -> length dvs = length (aconf a) -> apropose a = Some (dvs, x, c) ->
  exists a', next_step None true a = (a', Ok tt) /\ Forall2 same_but_dc (asys a') (asys a) /\
  axms a' = axms a ++ [x] /\ acurves a' = acurves a ++ [c] /\ apropose a' = None /\ aconf a' = aconf a /\ map fst (avolts a') = map ename (asys a) /\
  (forall n dv h v, moved_by a dvs n dv -> history a n (h ++ [v]) -> history a' n (h ++ [v; v + dv]) /\ dc_of (asys a') n = Some (v + dv)) /\
  (forall n h v, ~ In n (concat (aconf a)) -> history a n (h ++ [v]) -> history a' n (h ++ [v; v]) /\ dc_of (asys a') n = dc_of (asys a) n).
Proof. exact (accept_step a dvs x c). Qed.
Print Assumptions C69_accept_partial.
(** Refuted: a step with one's own deltaV is applied and saved, then fails *)
Theorem C69_refuted_own {X C} (a : adjust X C) dvs : ready a -> length dvs = length (aconf a) ->
  exists a', next_step (Some dvs) true a = (a', Raise UnboundLocalError) /\
  forall n dv h v, moved_by a dvs n dv -> history a n (h ++ [v]) -> history a' n (h ++ [v; v + dv]).
Proof. exact (own_step a dvs). Qed.
Print Assumptions C69_refuted_own.
Definition start : adjust R R := fst (calls [([("a", 2); ("b", 1)]%string, true)] (adjust_init two [["b"]]%string [0] [0])).
Example C69_hypotheses : ready start /\ last_accepted start "b" 1 /\ moved_by start [5] "b" 5 /\
  exists a', propose_move (fun _ x => Ok x) (fun _ _ => Ok 7) 0 (Ok [5]) start = (a', Ok tt) /\ dc_of (asys a') "b" = Some (1 + 5).
Proof.
  split.
  { split; [repeat constructor; cbn; intuition congruence|]. split; [reflexivity|]. split; [intros n h [[= <- <-]|[[= <- <-]|[]]]; discriminate|]. split; [repeat constructor; cbn; tauto|]. intros n [<-|[]]; cbn; tauto. }
  split; [exists []; right; left; reflexivity|]. split; [exists 0%nat, ["b"%string]; repeat split; left; reflexivity|]. eexists. split; reflexivity.
Qed.

(** C96 *)
Theorem C96_gradient_change {X C} solve minimum modes (xm0 : X) (a a' : adjust X C) x b dvs : ready a -> solves solve ->
  (forall e, In e (asys a) -> well_formed (egeom e)) -> (forall n v, last_accepted a n v -> dc_of (asys a) n = Some v) ->
  volt_change solve a x b = Ok dvs -> propose_move minimum modes xm0 (volt_change solve a x b) a = (a', Ok tt) ->
  Forall2 same_but_dc (asys a') (asys a) /\
  exists p p', electrical_potential (asys a) [x] 1 TDc = Ok p /\ electrical_potential (asys a') [x] 1 TDc = Ok p' /\
  forall k, (k < 3)%nat -> cell p' 0 k = cell p 0 k + nth k b 0.
Proof. exact (move_gradient solve minimum modes xm0 a a' x b dvs). Qed.
Print Assumptions C96_gradient_change.
(** method "position": the total gradient vanishes at the wanted point *)
Theorem C96_position {X C} solve minimum modes (xm0 : X) (a a' : adjust X C) x b dvs c T : ready a -> solves solve ->
  (forall e, In e (asys a) -> well_formed (egeom e)) -> (forall n v, last_accepted a n v -> dc_of (asys a) n = Some v) ->
  total_potential (Some c) (asys a) x 1 "tot" = Ok T -> b = [- T [0%nat]; - T [1%nat]; - T [2%nat]] ->
  volt_change solve a x b = Ok dvs -> propose_move minimum modes xm0 (volt_change solve a x b) a = (a', Ok tt) ->
  exists T', total_potential (Some c) (asys a') x 1 "tot" = Ok T' /\ forall k, (k < 3)%nat -> T' [k] = 0.
Proof. exact (position_zero solve minimum modes xm0 a a' x b dvs c T). Qed.
Print Assumptions C96_position.
(** three electrodes with constant unit fields, and a solver for them *)
Definition unit_field (k : nat) : geom := EOther (fun d _ => if Nat.eqb d 1 then tab 3 (fun i => if Nat.eqb i k then 1 else 0) else repeat 0 (2 * d + 1)).
Definition three : list electrode := [Electrode "x" 1 0 (unit_field 0); Electrode "y" 2 0 (unit_field 1); Electrode "z" 3 0 (unit_field 2)].
Definition diagonal (cols : list row) (b : list R) : res (list R) :=
  match cols, b with
  | [[a; p; q]; [r; c; s]; [t; u; d]], [b0; b1; b2] =>
      if Req_EM_T a 1 then if Req_EM_T c 1 then if Req_EM_T d 1 then
      if Req_EM_T (p ^ 2 + q ^ 2 + r ^ 2 + s ^ 2 + t ^ 2 + u ^ 2) 0 then Ok [b0; b1; b2] else Raise ValueError
      else Raise ValueError else Raise ValueError else Raise ValueError
  | _, _ => Raise ValueError
  end.
Definition start3 : adjust R R := fst (calls [([("x", 1); ("y", 2); ("z", 3)]%string, true)] (adjust_init three [["x"]; ["y"]; ["z"]]%string [0] [0])).
Example C96_hypotheses : ready start3 /\ solves diagonal /\ (forall e, In e (asys start3) -> well_formed (egeom e)) /\
  (forall n v, last_accepted start3 n v -> dc_of (asys start3) n = Some v) /\
  volt_change diagonal start3 (P3 0 0 1) [5; 6; 7] = Ok [5; 6; 7] /\
  exists a', propose_move (fun _ x => Ok x) (fun _ _ => Ok 7) 0 (Ok [5; 6; 7]) start3 = (a', Ok tt).
Proof.
  split.
  { split; [repeat constructor; cbn; intuition congruence|]. split; [reflexivity|]. split; [intros n h [[= <- <-]|[[= <- <-]|[[= <- <-]|[]]]]; discriminate|]. split; [repeat constructor; cbn; intuition congruence|]. intros n Hn. exact Hn. }
  split.
  { intros cols b dvs H. unfold diagonal in H. destruct cols as [|[|a [|p [|q [|? ?]]]] [|[|r [|c [|s [|? ?]]]] [|[|t [|u [|d [|? ?]]]] [|? ?]]]]; try discriminate.
    destruct b as [|b0 [|b1 [|b2 [|? ?]]]]; try discriminate. repeat destruct (Req_EM_T _ _); try discriminate. injection H as <-. split; [reflexivity|].
    assert (Z : p = 0 /\ q = 0 /\ r = 0 /\ s = 0 /\ t = 0 /\ u = 0) by (repeat split; nra). destruct Z as (-> & -> & -> & -> & -> & ->). subst.
    intros [|[|[|k]]] Hk; [| | |lia]; unfold sum_over; cbn; ring. }
  split.
  { intros e H. cbn in H. destruct H as [<-|[<-|[<-|[]]]]; intros d p; cbn [egeom unit_field]; destruct (Nat.eqb_spec d 1) as [->|]; try reflexivity; apply repeat_length. }
  split.
  { intros n v (h & H). unfold history in H. cbn in H. destruct H as [H|[H|[H|[]]]]; injection H as <- H; destruct h as [|? [|? ?]]; cbn in H; try discriminate; injection H as <-; reflexivity. }
  split; [|eexists; reflexivity].
  unfold volt_change, start3. cbn [fst calls]. cbn. unfold gradient1. cbn.
  repeat match goal with |- context [Req_EM_T ?a ?b] => destruct (Req_EM_T a b) as [|N]; [|exfalso; apply N; ring] end. reflexivity.
Qed.

(** C70: python 2, each polygon's words are converted and scaled by 1e-8 *)
Theorem C70_polygons_partial float ls bs out : file ls bs -> xic_to_list float false ls = Ok out ->
  Forall2 (fun b o => exists ws, block_words b ws /\ coordinates float ws o) bs out.
Proof. exact (polygons float ls bs out). Qed.
Print Assumptions C70_polygons_partial.
Theorem C70_no_error float ls bs : file ls bs ->
  Forall (fun b => exists n ws, block_words b ws /\ Forall (fun w => length w = n /\ Forall (fun s => exists u, float s = Ok u) w) ws) bs ->
  exists out, xic_to_list float false ls = Ok out.
Proof. exact (fun F H => file_ok float ls bs F H None []). Qed.
Print Assumptions C70_no_error.
(** the characters that str.split and str.rstrip take for white space *)
Theorem C70_white_space : forall c, is_space c = true <-> white c.
Proof.
  intros c. unfold is_space, white. cbn [In]. rewrite !Bool.orb_true_iff, !Bool.andb_true_iff, Nat.eqb_eq, !Nat.leb_le. set (n := nat_of_ascii c). clearbody n. lia.
Qed.
Print Assumptions C70_white_space.
Definition text : list (list ascii) := map chars ["L layer"; "P 1 1"; " 2 1"; " 1 2;"; "E"]%string.
Definition digit (w : list ascii) : res R := match w with [c] => Ok (INR (nat_of_ascii c - 48)) | _ => Raise ValueError end.
Example C70_triangle : file text [Block (chars "P 1 1") [chars " 2 1"] (chars " 1 2")] /\
  xic_to_list digit false text = Ok [[[1 * / 10 ^ 8; 1 * / 10 ^ 8]; [2 * / 10 ^ 8; 1 * / 10 ^ 8]; [1 * / 10 ^ 8; 2 * / 10 ^ 8]]].
Proof.
  split.
  - unfold text. cbn [map]. apply file_other. { do 2 eexists. split; [reflexivity|]. split; [reflexivity|discriminate]. }
    apply (file_block (Block (chars "P 1 1") [chars " 2 1"] (chars " 1 2")) [chars "E"] []).
    + split; [split; [eexists; reflexivity|exists (chars "P 1 "), "1"%char; split; reflexivity]|]. split; [|eexists; reflexivity]. constructor; [|constructor].
      split; [eexists; reflexivity|]. split; [exists (chars " 2 "), "1"%char; split; reflexivity|]. intros (r & E). apply (f_equal (@rev ascii)) in E. rewrite rev_app_distr in E. discriminate.
    + apply file_other; [|constructor]. do 2 eexists. split; [reflexivity|]. split; [reflexivity|discriminate].
  - assert (D : forall c n, nat_of_ascii c = (48 + n)%nat -> digit [c] = Ok (INR n)) by (intros c n H; unfold digit; rewrite H; do 2 f_equal; lia).
    change (xic_to_list digit false text) with (bind (to_array digit false [[["1"%char]; ["1"%char]]; [["2"%char]; ["1"%char]]; [["1"%char]; ["2"%char]]]) (fun e => Ok [e])).
    unfold to_array. cbn [map]. rewrite (D "1"%char 1%nat eq_refl), (D "2"%char 2%nat eq_refl). reflexivity.
Qed.
(** Refuted: a blank line makes it fail *)
Theorem C70_refuted_blank float py3 pre bs line rest : file pre bs -> (bs <> [] -> py3 = false) ->
  Forall (fun b => exists n ws, block_words b ws /\ Forall (fun w => length w = n /\ Forall (fun s => exists u, float s = Ok u) w) ws) bs ->
  blank line -> xic_to_list float py3 (pre ++ line :: rest) = Raise IndexError.
Proof. exact (blank_fails float py3 pre bs line rest). Qed.
Print Assumptions C70_refuted_blank.
(** Refuted: in Python 3 every file with a polygon fails *)
Theorem C70_refuted_python3 float ls bs : file ls bs -> bs <> [] -> xic_to_list float true ls = Raise TypeError.
Proof. exact (py3_raises float ls bs). Qed.
Print Assumptions C70_refuted_python3.

(** C88: for arrays of points of shape s (first axis: the coordinates) *)
Theorem C88_pointwise_partial func f t n s xyz : pointwise func f t -> ashape xyz = n :: s -> (0 < n)%nat -> s <> [] ->
  exists out, shaped func xyz = Ok out /\ ashape out = s ++ t /\ proper out /\
  forall idx idx', index_of s idx -> index_of t idx' ->
  entry out (idx ++ idx') = entry (f (map (fun i => entry xyz (i :: idx)) (seq 0 n))) idx'.
Proof. exact (shaped_spec func f t n s xyz). Qed.
Print Assumptions C88_pointwise_partial.
(** Refuted: a single point is taken as points with one coordinate each *)
Theorem C88_refuted_one_point func f t n data : pointwise func f t -> length data = n ->
  exists out, shaped func (Array [n] data) = Ok out /\ ashape out = n :: t /\
  forall i idx', (i < n)%nat -> index_of t idx' -> entry out (i :: idx') = entry (f [nth i data 0]) idx'.
Proof. exact (shaped_1d func f t n data). Qed.
Print Assumptions C88_refuted_one_point.
Example C88_sum : let func rows := Ok (Array [length rows] (map (fun r => sumR r) rows)) in
  pointwise func (fun r => Array [] [sumR r]) [] /\
  shaped func (Array [2; 1; 2]%nat [1; 2; 3; 4]) = Ok (Array [1; 2]%nat [1 + (3 + 0); 2 + (4 + 0)]).
Proof.
  cbv zeta. split; [|reflexivity]. split; [intros r; split; reflexivity|]. intros rows. cbn [length]. f_equal. f_equal. induction rows as [|r rows IH]; [reflexivity|]. cbn [map concat app]. now rewrite IH.
Qed.

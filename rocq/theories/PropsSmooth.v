(** C153: smooth fits a spline to a closed path; C154: Polygons.smooth keeps
    the structure of a layout. *)
From Coq Require Import Lra.
From Verif Require Import Base ModelField ModelGrid ModelTrans ModelLayout ModelSmooth SpecSmooth ProofSmooth ProofSmooth2.
Open Scope R_scope.
Notation length := List.length.

(** ** C153 *)
Theorem C153_fit {T} (splprep : fit -> T * Z) knots_of splev pts smoothing straight corner tol k knots :
  closed pts -> edges_ok pts ->
  exists f, describes pts smoothing straight corner tol k f /\
    smooth splprep knots_of splev pts smoothing straight corner tol k knots =
      (if (snd (splprep f) <=? 0)%Z
       then Ok (splev (fst (splprep f)) match knots with None => middle k (knots_of (fst (splprep f))) | Some m => linspace 0 1 m end)
       else Raise AssertionError).
Proof. exact (smooth_fit splprep knots_of splev pts smoothing straight corner tol k knots). Qed.
Print Assumptions C153_fit.
(** the parameters grow from 0 to 1, as splprep asks *)
Theorem C153_parameters pts smoothing straight corner tol k f :
  describes pts smoothing straight corner tol k f -> edges_ok pts -> (2 <= length pts)%nat ->
  nth 0 (f_u f) 0 = 0 /\ nth (length pts - 1) (f_u f) 0 = 1 /\
  forall i j, (i < j < length pts)%nat -> nth i (f_u f) 0 < nth j (f_u f) 0.
Proof. exact (parameters pts smoothing straight corner tol k f). Qed.
Print Assumptions C153_parameters.
Theorem C153_open {T} (splprep : fit -> T * Z) knots_of splev pts smoothing straight corner tol k knots :
  pts <> [] -> ~ closed pts -> smooth splprep knots_of splev pts smoothing straight corner tol k knots = Raise AssertionError.
Proof. exact (smooth_not_closed splprep knots_of splev pts smoothing straight corner tol k knots). Qed.
Print Assumptions C153_open.
(** the parameters of the result: all knots but the first and the last k, or equidistant ones *)
Theorem C153_result_parameters : forall k a m b, (1 <= k)%nat -> length a = k -> length b = k -> middle k (a ++ m ++ b) = m.
Proof.
  intros k a m b Hk La Lb. unfold middle. destruct k as [|k]; [lia|]. assert (SK : skipn (Datatypes.S k) (a ++ m ++ b) = m ++ b) by (rewrite <- La, skipn_app, skipn_all, Nat.sub_diag; reflexivity). rewrite SK.
  replace (length (a ++ m ++ b) - Datatypes.S k - Datatypes.S k)%nat with (length m + 0)%nat by (rewrite !app_length; lia). rewrite firstn_app_2. cbn. apply app_nil_r.
Qed.
Print Assumptions C153_result_parameters.
Theorem C153_equidistant : forall n j, (2 <= n)%nat -> (j < n)%nat -> nth_error (linspace 0 1 n) j = Some (INR j / (INR n - 1)).
Proof.
  intros n j Hn Hj. destruct n as [|[|n]]; [lia..|]. unfold linspace. rewrite nth_error_map. rewrite (nth_error_nth' _ 0%nat) by (rewrite seq_length; exact Hj). rewrite seq_nth by exact Hj. cbn [option_map]. f_equal. rewrite Nat.add_0_l. rewrite !S_INR. pose proof (pos_INR n). field. lra.
Qed.
Print Assumptions C153_equidistant.
(** a vertex where the path turns right by an angle delta, however small, does
    not count as straight unless the tolerance exceeds 2 pi - delta *)
Theorem C153_refuted_right_turn pts smoothing s tol k i delta f :
  describes pts smoothing (Some s) None tol k f -> edges_ok pts -> (0 < i)%nat -> (i + 1 < length pts)%nat ->
  0 < delta -> tol <= 2 * PI - delta ->
  turn (vertex pts (i - 1)) (vertex pts i) (vertex pts (i + 1)) (2 * PI - delta) -> nth i (f_w f) 0 = 1.
Proof. exact (right_turn pts smoothing s tol k i delta f). Qed.
Print Assumptions C153_refuted_right_turn.
(** whether the first vertex counts as straight depends on the direction of
    the first edge alone, not on the turn there *)
Theorem C153_refuted_start {T} (splprep : fit -> T * Z) knots_of splev pts smoothing s tol k knots theta :
  closed pts -> edges_ok pts -> (2 <= length pts)%nat -> heads (vertex pts 0) (vertex pts 1) theta ->
  exists f, describes pts smoothing (Some s) None tol k f /\ nth 0 (f_w f) 0 = (if Rlt_dec theta tol then s else 1) /\
    smooth splprep knots_of splev pts smoothing (Some s) None tol k knots =
      (if (snd (splprep f) <=? 0)%Z
       then Ok (splev (fst (splprep f)) match knots with None => middle k (knots_of (fst (splprep f))) | Some m => linspace 0 1 m end)
       else Raise AssertionError).
Proof. exact (smooth_start splprep knots_of splev pts smoothing s tol k knots theta). Qed.
Print Assumptions C153_refuted_start.

(** *** examples: a square with a point on its first side *)
Definition square5 : list p2 := [(0, 0); (1, 0); (2, 0); (2, 2); (0, 2); (0, 0)].
Example square5_closed : closed square5.
Proof. split; [discriminate|reflexivity]. Qed.
Example square5_edges : edges_ok square5.
Proof.
  intros i H. cbn in H. unfold edge_ok. do 5 (destruct i as [|i]; [cbn; intros E; injection E; intros; lra|]). lia.
Qed.
Example square5_start : heads (vertex square5 0) (vertex square5 1) 0.
Proof.
  pose proof PI_RGT_0. split; [lra|]. unfold dist. cbn. rewrite cos_0, sin_0.
  replace ((1 - 0) * ((1 - 0) * 1) + (0 - 0) * ((0 - 0) * 1)) with 1 by ring. rewrite sqrt_1. lra.
Qed.
Lemma sqrt_sq x y : 0 <= x -> y = x * x -> sqrt y = x.
Proof. intros H ->. now apply sqrt_square. Qed.
Example square5_straight : turns_less square5 (1 / 1000000) 1.
Proof.
  exists 0. split; [|lra]. pose proof PI_RGT_0. split; [lra|]. unfold dist. cbn. rewrite cos_0, sin_0.
  do 2 (rewrite (sqrt_sq 1) by lra). lra.
Qed.
Example square5_corner : ~ turns_less square5 (1 / 1000000) 2.
Proof.
  intros (theta & (R & A & B) & L). unfold dist in A, B. cbn in A, B. clear B. rewrite (sqrt_sq 2) in A by lra. rewrite (sqrt_sq 1) in A by lra.
  assert (C : cos theta = 0) by lra. pose proof PI2_RGT_0. pose proof PI2_1.
  assert (0 < cos theta) by (apply cos_gt_0; lra). lra.
Qed.
(** the point on the side counts as straight, the corner after it does not;
    the corner at the start does, because the first edge goes along x *)
Example C153_square : exists f, describes square5 1 (Some 100) None (1 / 1000000) 1 f /\
  nth 1 (f_w f) 0 = 100 /\ nth 2 (f_w f) 0 = 1 /\ nth 0 (f_w f) 0 = 100.
Proof.
  destruct (C153_refuted_start (fun f => (f, 0%Z)) (fun _ => []) (fun _ _ => []) square5 1 100 (1 / 1000000) 1 None 0) as (f & D & W & _);
    [exact square5_closed|exact square5_edges|cbn; lia|exact square5_start|]. exists f. split; [exact D|]. split; [|split].
  - apply (d_straight _ _ _ _ _ _ _ D); [lia|cbn; lia|exact square5_straight].
  - apply (d_plain _ _ _ _ _ _ _ D); [lia|cbn; lia|exact square5_corner|reflexivity].
  - rewrite W. destruct (Rlt_dec 0 (1 / 1000000)); [reflexivity|lra].
Qed.
(** beside a straight vertex the corner weight *)
Example C153_square_corner : exists f, describes square5 1 (Some 100) (Some 7) (1 / 1000000) 1 f /\ nth 2 (f_w f) 0 = 7.
Proof.
  destruct (C153_fit (fun f => (f, 0%Z)) (fun _ => []) (fun _ _ => []) square5 1 (Some 100) (Some 7) (1 / 1000000) 1 None) as (f & D & _);
    [exact square5_closed|exact square5_edges|]. exists f. split; [exact D|].
  apply (d_corner _ _ _ _ _ _ _ D) with (c := 7); [lia|cbn; lia|exact square5_corner|reflexivity|left; exact square5_straight].
Qed.
Example C153_open_path : smooth (fun f : fit => (f, 0%Z)) (fun _ => []) (fun _ _ => []) [(0, 0); (1, 0); (1, 1)] 1 None None 0 1 None = Raise AssertionError.
Proof. apply C153_open; [discriminate|]. intros [_ E]. cbn in E. injection E. intros. lra. Qed.
(** the square run clockwise: right turns by pi / 2 *)
Definition square_cw : list p2 := [(0, 0); (0, 2); (2, 2); (2, 0); (0, 0)].
Example square_cw_closed : closed square_cw.
Proof. split; [discriminate|reflexivity]. Qed.
Example square_cw_edges : edges_ok square_cw.
Proof.
  intros i H. cbn in H. unfold edge_ok. do 4 (destruct i as [|i]; [cbn; intros E; injection E; intros; lra|]). lia.
Qed.
Example C153_right_turn : exists f, describes square_cw 1 (Some 100) None 4 1 f /\ nth 1 (f_w f) 0 = 1 /\
  (** run the other way round, the turn by pi / 2 is below the tolerance *)
  turns_less (rev square_cw) 4 1.
Proof.
  destruct (C153_fit (fun f => (f, 0%Z)) (fun _ => []) (fun _ _ => []) square_cw 1 (Some 100) None 4 1 None) as (f & D & _);
    [exact square_cw_closed|exact square_cw_edges|]. exists f. split; [exact D|]. split.
  - pose proof PI2_RGT_0 as P. pose proof PI2_3_2.
    apply (C153_refuted_right_turn square_cw 1 100 4 1 1 (PI / 2) f D square_cw_edges); [lia|cbn; lia|lra|lra|].
    split; [lra|]. unfold dist. cbn. rewrite (sqrt_sq 2 _) by lra. rewrite (sqrt_sq 2 _) by lra.
    replace (2 * PI - PI / 2) with (3 * (PI / 2)) by lra. rewrite cos_3PI2, sin_3PI2. lra.
  - exists (PI / 2). pose proof PI2_RGT_0. pose proof PI_4. split; [|lra]. split; [lra|]. unfold dist. cbn.
    rewrite (sqrt_sq 2 _) by lra. rewrite (sqrt_sq 2 _) by lra. rewrite cos_PI2, sin_PI2. lra.
Qed.

(** ** C154 *)
Theorem C154_kept sm self out : smooth_all sm self = Ok out <->
  Forall2 (fun a b => fst b = fst a /\ exists ps, snd b = Multi ps /\ kept sm (geoms (snd a)) ps) self out.
Proof. exact (all_kept sm self out). Qed.
Print Assumptions C154_kept.
(** it fails with the error of the first path that cannot be smoothed *)
Theorem C154_raises sm self e : smooth_all sm self = Raise e <->
  exists before r after, rings self = before ++ r :: after /\ sm r = Raise e /\ Forall (fun r => exists l, sm r = Ok l) before.
Proof. exact (all_raise sm self e). Qed.
Print Assumptions C154_raises.
Theorem C154_identity sm self : (forall r, In r (rings self) -> (3 <= length r)%nat /\ sm r = Ok r) ->
  smooth_all sm self = Ok (map (fun np => (fst np, Multi (geoms (snd np)))) self).
Proof. exact (all_id sm self). Qed.
Print Assumptions C154_identity.

(** *** examples *)
Definition tri : list p2 := [(0, 0); (4, 0); (0, 4); (0, 0)].
Definition small : list p2 := [(1, 1); (1, 2); (2, 1); (1, 1)].
Definition layout2 : list (string * shape) :=
  [("a"%string, Single (Polygon tri [small])); ("b"%string, Multi [Polygon small []; Polygon tri []])].
(** a smoothing that shrinks the small ring to one point *)
Definition shrink (r : list p2) : res (list p2) :=
  match r with (x, _) :: _ => if Req_EM_T x 1 then Ok [(1, 1)] else Ok r | [] => Raise IndexError end.
Example shrink_tri : shrink tri = Ok tri.
Proof. cbn. destruct (Req_EM_T 0 1); [lra|reflexivity]. Qed.
Example shrink_small : shrink small = Ok [(1, 1)].
Proof. cbn. destruct (Req_EM_T 1 1); [reflexivity|lra]. Qed.
Example C154_layout : smooth_all shrink layout2 = Ok [("a"%string, Multi [Polygon tri []]); ("b"%string, Multi [Polygon tri []])].
Proof.
  apply C154_kept. constructor; [|constructor; [|constructor]]; (split; [reflexivity|]); (eexists; split; [reflexivity|]); cbn [geoms snd].
  - apply (kept_keep shrink (Polygon tri [small]) [] tri [[(1, 1)]] []); [exact shrink_tri|cbn; lia| |constructor].
    constructor; [exact shrink_small|constructor].
  - apply (kept_drop shrink (Polygon small []) [Polygon tri []] [(1, 1)] []); [exact shrink_small|cbn; lia|constructor|].
    apply (kept_keep shrink (Polygon tri []) [] tri [] []); [exact shrink_tri|cbn; lia|constructor|constructor].
Qed.
Example C154_error : smooth_all (fun r => match r with [] => Raise IndexError | _ => Ok r end)
  [("a"%string, Single (Polygon tri [[]]))] = Raise IndexError.
Proof. apply C154_raises. exists [tri], [], []. split; [reflexivity|]. split; [reflexivity|]. constructor; [eexists; reflexivity|constructor]. Qed.
Example C154_same : smooth_all Ok layout2 = Ok (map (fun np => (fst np, Multi (geoms (snd np)))) layout2).
Proof. apply C154_identity. intros r H. cbn in H. split; [|reflexivity]. repeat (destruct H as [<-|H]; [cbn; lia|]). destruct H. Qed.

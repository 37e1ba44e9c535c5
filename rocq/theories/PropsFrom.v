(** Property theorems C114 to C118. *)
From Verif Require Import Base SpecTensor ModelTrans ModelFrom SpecTrans SpecFrom ProofTrans ProofRigid ProofFrom ProofFrom2 ProofFrom3 ProofFrom4 ProofFrom5 ProofFrom6.
Open Scope R_scope.
Notation length := List.length.

(** ** C114 *)
Theorem C114_inverse : forall e p n, inner 3 n n <> 0 ->
  let m := reflection_matrix p n in
  eig_right 3 m (eig3 e m) -> eig_right 4 m (eig4 e m) ->
  exists point normal, reflection_from_matrix e m = Ok (point, normal) /\ inner 3 normal normal = 1 /\ along n normal /\
  (forall P, point = Some P -> on_plane p n P /\ same4 (reflection_matrix P normal) m) /\
  (ends_at 1 (eig4 e m) -> point <> None).
Proof. exact reflection_inverse. Qed.
(** a right list of eigenvectors in another order: the point is nan *)
Theorem C114_refuted_order : exists e, let m := reflection_matrix z3 z3 in
  eig_right 3 m (eig3 e m) /\ eig_right 4 m (eig4 e m) /\ exists normal, reflection_from_matrix e m = Ok (None, normal).
Proof. exact reflection_no_point. Qed.
(** the plane z = 1 *)
Example C114_example : let m := reflection_matrix z3 z3 in let e := up (-1) in
  inner 3 z3 z3 <> 0 /\ eig_right 3 m (eig3 e m) /\ eig_right 4 m (eig4 e m) /\ ends_at 1 (eig4 e m).
Proof. split; [exact z3_nz|]. destruct up_reflection as [A B]. split; [exact A|]. split; [exact B|]. apply l4_ends. Qed.
Print Assumptions C114_inverse.
Print Assumptions C114_refuted_order.

(** ** C115 *)
Theorem C115_inverse_partial : forall e angle dir p, inner 3 dir dir <> 0 -> cos angle = 1 \/ cos angle <= 1 - / 10 ^ 8 ->
  let m := rotation_matrix angle dir (Some p) in
  eig_right 3 (transposed m) (eig3 e (transposed m)) -> eig_right 4 m (eig4 e m) ->
  exists angle' dir' point, rotation_from_matrix e m = Ok (angle', dir', point) /\ inner 3 dir' dir' = 1 /\
  (cos angle <> 1 -> along dir dir') /\
  (forall P, point = Some P -> same4 (rotation_matrix angle' dir' (Some P)) m) /\
  (ends_at 1 (eig4 e m) -> point <> None).
Proof. exact rotation_inverse. Qed.
(** a rotation by a small angle may be read as no rotation *)
Theorem C115_refuted_small : forall angle, 1 - / 10 ^ 8 < cos angle < 1 -> exists e, let m := rotation_matrix angle x3 (Some (fun _ => 0)) in
  eig_right 3 (transposed m) (eig3 e (transposed m)) /\ eig_right 4 m (eig4 e m) /\
  exists d P, rotation_from_matrix e m = Ok (0, d, Some P) /\ ~ same4 (rotation_matrix 0 d (Some P)) m.
Proof. exact tiny_lost. Qed.
(** a quarter turn about the axis through (1, 0, 0) parallel to z *)
Example C115_example : let m := rotation_matrix (PI / 2) z3 (Some x3) in
  inner 3 z3 z3 <> 0 /\ cos (PI / 2) <= 1 - tol8 /\
  eig_right 3 (transposed m) (eig3 quarter (transposed m)) /\ eig_right 4 m (eig4 quarter m) /\ ends_at 1 (eig4 quarter m).
Proof. split; [exact z3_nz|]. split; [rewrite cos_PI2; pose proof tol8_small; lra|]. exact quarter_right. Qed.
Example C115_example_small : 1 - tol8 < cos (/ 10000) < 1.
Proof. exact tiny_angle. Qed.
Print Assumptions C115_inverse_partial.
Print Assumptions C115_refuted_small.

(** ** C116 *)
Theorem C116_along_direction : forall e f o d, inner 3 d d <> 0 -> / 10 ^ 8 <= Rabs (f - 1) ->
  let m := scale_matrix f (Some o) (Some d) in
  eig_right 3 m (eig3 e m) -> eig_right 4 m (eig4 e m) ->
  exists origin direction, scale_from_matrix e m = Ok (f, origin, Some direction) /\ along d direction /\
  (forall O, origin = Some O -> on_plane o d O /\ same4 (scale_matrix f (Some O) (Some direction)) m) /\
  (ends_at 1 (eig4 e m) -> origin <> None).
Proof. exact scale_direction_inverse. Qed.
Theorem C116_uniform : forall e f o, / 10 ^ 8 <= Rabs (f - 1) ->
  let m := scale_matrix f (Some o) None in
  eig_right 3 m (eig3 e m) -> eig_right 4 m (eig4 e m) ->
  exists O, scale_from_matrix e m = Ok (f, Some O, None) /\ vsame 3 O o /\ same4 (scale_matrix f (Some O) None) m.
Proof. exact scale_uniform_inverse. Qed.
Theorem C116_one : forall e o d, let m := scale_matrix 1 (Some o) d in
  eig_right 3 m (eig3 e m) -> eig_right 4 m (eig4 e m) ->
  exists origin direction, scale_from_matrix e m = Ok (1, origin, Some direction) /\ inner 3 direction direction = 1 /\
  (forall O, origin = Some O -> same4 (scale_matrix 1 (Some O) (Some direction)) m) /\
  (ends_at 1 (eig4 e m) -> origin <> None).
Proof. exact scale_one_inverse. Qed.
(** doubled along z from the plane z = 1, and from the point (0, 0, 1) *)
Example C116_example : tol8 <= Rabs (2 - 1) /\
  (let m := scale_matrix 2 (Some z3) (Some z3) in eig_right 3 m (eig3 (up 2) m) /\ eig_right 4 m (eig4 (up 2) m) /\ ends_at 1 (eig4 (up 2) m)) /\
  (let m := scale_matrix 2 (Some z3) None in eig_right 3 m (eig3 uni m) /\ eig_right 4 m (eig4 uni m)).
Proof.
  split; [rewrite Rabs_pos_eq by lra; pose proof tol8_small; lra|]. split; [|exact uni_right].
  destruct up_scale as [A B]. split; [exact A|]. split; [exact B|]. apply l4_ends.
Qed.
Example C116_example_one : let m := scale_matrix 1 (Some z3) None in eig_right 3 m (eig3 (up 1) m) /\ eig_right 4 m (eig4 (up 1) m).
Proof. exact up_one. Qed.
Print Assumptions C116_along_direction.
Print Assumptions C116_uniform.
Print Assumptions C116_one.

(** ** C117 *)
Theorem C117_orthogonal : forall e p n b, inner 3 n n <> 0 -> let m := projection_matrix p n None None b in
  eig_right 3 m (eig3 e m) -> eig_right 3 (transposed m) (eig3 e (transposed m)) -> eig_right 4 m (eig4 e m) ->
  exists point normal direction, projection_from_matrix e m false = Ok (Projection point normal (Some direction) None false) /\
  along n normal /\ along n direction /\
  (forall P, point = Some P -> on_plane p n P /\ same4 (projection_matrix P normal (Some direction) None false) m) /\
  (ends_at 1 (eig4 e m) -> point <> None).
Proof. exact orthogonal_inverse. Qed.
Theorem C117_parallel : forall e p n d b, inner 3 n n <> 0 -> inner 3 d n <> 0 -> let m := projection_matrix p n (Some d) None b in
  eig_right 3 m (eig3 e m) -> eig_right 3 (transposed m) (eig3 e (transposed m)) -> eig_right 4 m (eig4 e m) ->
  exists point normal direction, projection_from_matrix e m false = Ok (Projection point normal (Some direction) None false) /\
  along n normal /\ along d direction /\
  (forall P, point = Some P -> on_plane p n P /\ same4 (projection_matrix P normal (Some direction) None false) m) /\
  (ends_at 1 (eig4 e m) -> point <> None).
Proof. exact parallel_inverse. Qed.
(** the plane off the origin, the point neither 0 nor 1 away from it *)
Theorem C117_perspective_partial : forall e p n d q, inner 3 n n <> 0 -> inner 3 p n <> 0 ->
  let k := inner 3 (fun i => q i - p i) (unit3 n) in / 10 ^ 8 < Rabs k -> / 10 ^ 8 <= Rabs (k - 1) ->
  let m := projection_matrix p n d (Some q) false in eig_right 4 m (eig4 e m) ->
  exists point perspective, projection_from_matrix e m false = Ok (Projection point (fun i => - m 3%nat i) None (Some perspective) false) /\
  along n (fun i => - m 3%nat i) /\
  (forall P, point = Some P -> on_plane p n P /\ exists E, perspective = Some E /\ vsame 3 E q /\
     same4 (projection_matrix P (fun i => - m 3%nat i) None (Some E) false) m) /\
  (ends_at k (eig4 e m) -> point <> None).
Proof. exact perspective_inverse. Qed.
Theorem C117_pseudo_partial : forall e p n d q, inner 3 n n <> 0 -> inner 3 p n <> 0 ->
  let k := inner 3 (fun i => q i - p i) (unit3 n) in / 10 ^ 8 < Rabs k -> k <> -1 ->
  let m := projection_matrix p n d (Some q) true in eig_right 4 m (eig4 e m) -> ends_at k (eig4 e m) ->
  exists P E, projection_from_matrix e m true = Ok (Projection (Some P) (fun i => - m 3%nat i) None (Some (Some E)) true) /\
  along n (fun i => - m 3%nat i) /\ on_plane p n P /\ vsame 3 E q /\ same4 (projection_matrix P (fun i => - m 3%nat i) None (Some E) true) m.
Proof. exact pseudo_inverse. Qed.
(** a point one away from the plane: refused *)
Theorem C117_refuted_one : forall e p n d q, inner 3 n n <> 0 -> / 10 ^ 8 <= Rabs (inner 3 p (unit3 n)) -> inner 3 (fun i => q i - p i) (unit3 n) = 1 ->
  let m := projection_matrix p n d (Some q) false in eig_right 4 m (eig4 e m) -> eig_right 3 m (eig3 e m) ->
  projection_from_matrix e m false = Raise ValueError.
Proof. exact perspective_one. Qed.
(** a plane through the origin: the perspective point is nan *)
Theorem C117_refuted_origin : forall e p n d q b, inner 3 n n <> 0 -> inner 3 p n = 0 ->
  let k := inner 3 (fun i => q i - p i) (unit3 n) in / 10 ^ 8 < Rabs k -> / 10 ^ 8 <= Rabs (k - 1) ->
  let m := projection_matrix p n d (Some q) b in eig_right 4 m (eig4 e m) -> ends_at k (eig4 e m) ->
  k <> - 1 -> exists P, projection_from_matrix e m b = Ok (Projection (Some P) (fun i => - m 3%nat i) None (Some None) b).
Proof. exact perspective_origin. Qed.
(** the depth kept: another perspective point when -1 is listed last *)
Theorem C117_refuted_pseudo : exists e p n q, let m := projection_matrix p n None (Some q) true in
  inner 3 n n <> 0 /\ inner 3 p n <> 0 /\ eig_right 4 m (eig4 e m) /\
  exists P N E, projection_from_matrix e m true = Ok (Projection (Some P) N None (Some (Some E)) true) /\ ~ vsame 3 E q /\
  ~ same4 (projection_matrix P N None (Some E) true) m.
Proof. exact pseudo_lost. Qed.
(** on the plane z = 1: along z, along (1, 0, 1), from (0, 0, 3) *)
Example C117_example_orthogonal : let m := projection_matrix z3 z3 None None false in
  eig_right 3 m (eig3 (up 0) m) /\ eig_right 3 (transposed m) (eig3 (up 0) (transposed m)) /\ eig_right 4 m (eig4 (up 0) m) /\ ends_at 1 (eig4 (up 0) m).
Proof. destruct up_orthogonal as (A & B & C). split; [exact A|]. split; [exact B|]. split; [exact C|]. apply l4_ends. Qed.
Example C117_example_parallel : let m := projection_matrix z3 z3 (Some slant) None false in inner 3 slant z3 <> 0 /\
  eig_right 3 m (eig3 par m) /\ eig_right 3 (transposed m) (eig3 par (transposed m)) /\ eig_right 4 m (eig4 par m) /\ ends_at 1 (eig4 par m).
Proof. split; [unfold inner, slant, z3; cbn; lra|exact par_right]. Qed.
Example C117_example_perspective : forall b, let m := projection_matrix (q3 1) z3 None (Some (q3 3)) b in
  exists e, inner 3 (q3 1) z3 <> 0 /\ inner 3 (fun i => q3 3 i - q3 1 i) (unit3 z3) = 2 /\ eig_right 4 m (eig4 e m) /\ ends_at 2 (eig4 e m).
Proof. exact persp_example. Qed.
Example C117_example_one : let m := projection_matrix (q3 1) z3 None (Some (q3 2)) false in
  exists e, inner 3 (q3 1) (unit3 z3) = 1 /\ inner 3 (fun i => q3 2 i - q3 1 i) (unit3 z3) = 1 /\ eig_right 4 m (eig4 e m) /\ eig_right 3 m (eig3 e m).
Proof. exact persp_example_one. Qed.
Example C117_example_origin : let m := projection_matrix (q3 0) z3 None (Some (q3 2)) false in
  exists e, inner 3 (q3 0) z3 = 0 /\ inner 3 (fun i => q3 2 i - q3 0 i) (unit3 z3) = 2 /\ eig_right 4 m (eig4 e m) /\ ends_at 2 (eig4 e m).
Proof. exact persp_example_origin. Qed.
Print Assumptions C117_orthogonal.
Print Assumptions C117_parallel.
Print Assumptions C117_perspective_partial.
Print Assumptions C117_pseudo_partial.
Print Assumptions C117_refuted_one.
Print Assumptions C117_refuted_origin.
Print Assumptions C117_refuted_pseudo.

(** ** C118 *)
(** a direction in the plane, and at least two different eigenvectors *)
Theorem C118_inverse_partial : forall e angle d p n m, inner 3 n n <> 0 -> inner 3 d d <> 0 -> inner 3 d n = 0 -> tan angle <> 0 ->
  shear_matrix angle d p n = Ok m -> eig_right 3 m (eig3 e m) -> eig_right 4 m (eig4 e m) ->
  (exists a b, In a (eig3 e m) /\ In b (eig3 e m) /\ ~ vsame 3 (cross (vr a) (vr b)) (fun _ => 0)) ->
  exists angle' direction normal point, shear_from_matrix e m = Ok (Some (angle', direction, normal), point) /\
  tan angle' = Rabs (tan angle) /\ along n normal /\ along d direction /\
  (forall P, point = Some P -> on_plane p n P /\ exists m', shear_matrix angle' direction P normal = Ok m' /\ same4 m' m) /\
  (ends_at 1 (eig4 e m) -> point <> None).
Proof. exact shear_inverse. Qed.
(** without an angle the result is nan *)
Theorem C118_refuted_zero : forall e angle d p n m, inner 3 n n <> 0 -> inner 3 d n = 0 -> tan angle = 0 ->
  shear_matrix angle d p n = Ok m -> eig_right 3 m (eig3 e m) -> eig_right 4 m (eig4 e m) ->
  exists point, shear_from_matrix e m = Ok (None, point).
Proof. exact shear_none. Qed.
(** a steep shear along a direction slightly off the plane raises *)
Theorem C118_refuted_steep : forall e angle d p n m, inner 3 n n <> 0 -> inner 3 d d <> 0 ->
  / 10 ^ 4 <= Rabs (tan angle * inner 3 (unit3 n) (unit3 d)) ->
  shear_matrix angle d p n = Ok m -> eig_right 3 m (eig3 e m) -> exists x, shear_from_matrix e m = Raise x.
Proof. exact shear_steep. Qed.
(** along x over the plane z = 1, by any angle *)
Example C118_example : forall angle, exists m, shear_matrix angle x3 z3 z3 = Ok m /\ eig_right 3 m (eig3 slide m) /\ eig_right 4 m (eig4 slide m) /\ ends_at 1 (eig4 slide m) /\
  (exists a b, In a (eig3 slide m) /\ In b (eig3 slide m) /\ ~ vsame 3 (cross (vr a) (vr b)) (fun _ => 0)).
Proof.
  intros angle. destruct (slide_right angle) as (m & A & B & C & D). exists m. split; [exact A|]. split; [exact B|]. split; [exact C|]. split; [exact D|].
  apply slide_spans.
Qed.
Example C118_example_steep : tol4 <= Rabs (tan (atan 2000) * inner 3 (unit3 z3) (unit3 off)) /\
  exists m e, shear_matrix (atan 2000) off z3 z3 = Ok m /\ eig_right 3 m (eig3 e m).
Proof. split; [exact off_steep|exact off_ok]. Qed.
Print Assumptions C118_inverse_partial.
Print Assumptions C118_refuted_zero.
Print Assumptions C118_refuted_steep.

(** Model of electrode/transformations.py.  Numbers are reals, so rounding,
    infinities and signed zeros are not modelled; vectors and matrices are
    functions of their indices, of which 0..2 or 0..3 are in use. *)
From Verif Require Import Base.
Open Scope R_scope.
Open Scope nat_scope.
Notation length := List.length.

Definition vec := nat -> R.
Definition mat4 := nat -> nat -> R.
Definition vset (v : vec) (i : nat) (x : R) : vec := fun k => if k =? i then x else v k.
Definition mset (m : mat4) (i j : nat) (x : R) : mat4 := fun a b => if (a =? i) && (b =? j) then x else m a b.
Open Scope R_scope.
Definition vec3 (a b c : R) : vec := fun k => match k with 0%nat => a | 1%nat => b | 2%nat => c | _ => 0 end.
Definition vec4 (a b c d : R) : vec := fun k => match k with 0%nat => a | 1%nat => b | 2%nat => c | 3%nat => d | _ => 0 end.
(** numpy.dot of vectors of 3 and of 4 *)
Definition dot3 (v w : vec) : R := v 0%nat * w 0%nat + v 1%nat * w 1%nat + v 2%nat * w 2%nat.
Definition dot4 (v w : vec) : R := v 0%nat * w 0%nat + v 1%nat * w 1%nat + v 2%nat * w 2%nat + v 3%nat * w 3%nat.
(** numpy.cross *)
Definition cross (v w : vec) : vec :=
  vec3 (v 1%nat * w 2%nat - v 2%nat * w 1%nat) (v 2%nat * w 0%nat - v 0%nat * w 2%nat) (v 0%nat * w 1%nat - v 1%nat * w 0%nat).
Definition vscale (c : R) (v : vec) : vec := fun k => c * v k.
Definition vplus (v w : vec) : vec := fun k => v k + w k.
Definition vminus (v w : vec) : vec := fun k => v k - w k.
Definition vneg (v : vec) : vec := fun k => - v k.
(** vector_norm for one dimension, transformations.py 1712-1715 *)
Definition norm3 (v : vec) : R := sqrt (dot3 v v).
Definition norm4 (v : vec) : R := sqrt (dot4 v v).
(** unit_vector for one dimension, 1751-1755; zero vectors give nan, which
    theorems exclude *)
Definition unit3 (v : vec) : vec := fun k => v k / sqrt (dot3 v v).
Definition unit4 (v : vec) : vec := fun k => v k / sqrt (dot4 v v).
(** _EPS, 1669: 4 times 2**-52 *)
Definition eps : R := / 2 ^ 50.

(** math.atan2 *)
Definition atan2 (y x : R) : R :=
  if Rlt_dec 0 x then atan (y / x)
  else if Rlt_dec x 0 then (if Rle_dec 0 y then atan (y / x) + PI else atan (y / x) - PI)
  else if Rlt_dec 0 y then PI / 2 else if Rlt_dec y 0 then - (PI / 2) else 0.

Definition identity4 : mat4 := fun i j => if (i =? j)%nat then 1 else 0.
(** numpy.dot of matrices *)
Definition mdot4 (a b : mat4) : mat4 := fun i j => dot4 (a i) (fun k => b k j).
(** assign the upper left 3 x 3 block, resp. the last column *)
Definition set33 (m : mat4) (r : nat -> nat -> R) : mat4 :=
  fun i j => if ((i <? 3) && (j <? 3))%nat%bool then r i j else m i j.
Definition setcol (m : mat4) (v : vec) : mat4 :=
  fun i j => if ((i <? 3) && (j =? 3))%nat%bool then v i else m i j.
Definition setrow (m : mat4) (v : vec) : mat4 :=
  fun i j => if ((i =? 3) && (j <? 3))%nat%bool then v j else m i j.
Definition outer (v w : vec) : nat -> nat -> R := fun i j => v i * w j.

(** ** translation_matrix, 222-232 *)
Definition translation_matrix (direction : vec) : mat4 := setcol identity4 direction.
(** ** translation_from_matrix, 235-244 *)
Definition translation_from_matrix (m : mat4) : vec := fun i => m i 3%nat.

(** ** reflection_matrix, 266-270 *)
Definition reflection_matrix (point normal : vec) : mat4 :=
  let n := unit3 normal in
  let m := set33 identity4 (fun i j => identity4 i j - 2 * outer n n i j) in
  setcol m (fun i => 2 * dot3 point n * n i).

(** ** rotation_matrix, 328-343 *)
Definition rotation_matrix (angle : R) (direction : vec) (point : option vec) : mat4 :=
  let sina := sin angle in
  let cosa := cos angle in
  let d := unit3 direction in
  let r := fun i j => (if (i =? j)%nat then cosa else 0) + outer d d i j * (1 - cosa) in
  let d := fun k => d k * sina in
  let skew := fun i j => match i, j with
                         | 0%nat, 1%nat => - d 2%nat | 0%nat, 2%nat => d 1%nat
                         | 1%nat, 0%nat => d 2%nat | 1%nat, 2%nat => - d 0%nat
                         | 2%nat, 0%nat => - d 1%nat | 2%nat, 1%nat => d 0%nat
                         | _, _ => 0
                         end in
  let r := fun i j => r i j + skew i j in
  let m := set33 identity4 r in
  match point with
  | Some p => setcol m (fun i => p i - dot3 (r i) p)
  | None => m
  end.

(** ** scale_matrix, 402-417 *)
Definition scale_matrix (factor : R) (origin direction : option vec) : mat4 :=
  match direction with
  | None =>
      let m := fun i j => if (i =? j)%nat then (if (i =? 3)%nat then 1 else factor) else 0 in
      match origin with
      | Some o => setcol m (fun i => o i * (1 - factor))
      | None => m
      end
  | Some direction =>
      let d := unit3 direction in
      let f := 1 - factor in
      let m := set33 identity4 (fun i j => identity4 i j - f * outer d d i j) in
      match origin with
      | Some o => setcol m (fun i => f * dot3 o d * d i)
      | None => m
      end
  end.

(** ** projection_matrix, 492-520 *)
Definition projection_matrix (point normal : vec) (direction perspective : option vec) (pseudo : bool) : mat4 :=
  let n := unit3 normal in
  match perspective with
  | Some e =>
      let c := dot3 (vminus e point) n in
      let m := set33 identity4 (fun i j => if (i =? j)%nat then c else 0) in
      let m := set33 m (fun i j => m i j - outer e n i j) in
      let m := if pseudo then
                 setcol (set33 m (fun i j => m i j - outer n n i j)) (fun i => dot3 point n * (e i + n i))
               else setcol m (fun i => dot3 point n * e i) in
      let m := setrow m (fun j => - n j) in
      mset m 3 3 (dot3 e n)
  | None =>
      match direction with
      | Some d =>
          let scale := dot3 d n in
          let m := set33 identity4 (fun i j => identity4 i j - outer d n i j / scale) in
          setcol m (fun i => d i * (dot3 point n / scale))
      | None =>
          let m := set33 identity4 (fun i j => identity4 i j - outer n n i j) in
          setcol m (fun i => dot3 point n * n i)
      end
  end.

(** ** clip_matrix, 629-645 *)
Definition rows4 (a b c d : vec) : mat4 := fun i => match i with 0%nat => a | 1%nat => b | 2%nat => c | _ => d end.
Definition clip_matrix (left right bottom top near far : R) (perspective : bool) : res mat4 :=
  if Rle_dec right left then Raise ValueError
  else if Rle_dec top bottom then Raise ValueError
  else if Rle_dec far near then Raise ValueError
  else if perspective then
    if Rle_dec near eps then Raise ValueError
    else
      let t := 2 * near in
      Ok (rows4 (vec4 (t / (left - right)) 0 ((right + left) / (right - left)) 0)
                (vec4 0 (t / (bottom - top)) ((top + bottom) / (top - bottom)) 0)
                (vec4 0 0 ((far + near) / (near - far)) (t * far / (far - near)))
                (vec4 0 0 (- 1) 0))
  else
    Ok (rows4 (vec4 (2 / (right - left)) 0 0 ((right + left) / (left - right)))
              (vec4 0 (2 / (top - bottom)) 0 ((top + bottom) / (bottom - top)))
              (vec4 0 0 (2 / (far - near)) ((far + near) / (near - far)))
              (vec4 0 0 0 1)).

(** ** shear_matrix, 668-676 *)
Definition shear_matrix (angle : R) (direction point normal : vec) : res mat4 :=
  let n := unit3 normal in
  let d := unit3 direction in
  if Rlt_dec (/ 10 ^ 6) (Rabs (dot3 n d)) then Raise ValueError
  else
    let a := tan angle in
    let m := set33 identity4 (fun i j => identity4 i j + a * outer d n i j) in
    Ok (setcol m (fun i => - a * dot3 point n * d i)).

(** ** Euler angles.  [_AXES2TUPLE], 1675-1683, [_NEXT_AXIS], 1672 *)
Record code := Code { firstaxis : nat; parity : bool; repetition : bool; frame : bool }.
Local Open Scope string_scope.
Definition axes2tuple : list (string * code) :=
  let f := false in let t := true in
  [("sxyz", Code 0 f f f); ("sxyx", Code 0 f t f); ("sxzy", Code 0 t f f);
   ("sxzx", Code 0 t t f); ("syzx", Code 1 f f f); ("syzy", Code 1 f t f);
   ("syxz", Code 1 t f f); ("syxy", Code 1 t t f); ("szxy", Code 2 f f f);
   ("szxz", Code 2 f t f); ("szyx", Code 2 t f f); ("szyz", Code 2 t t f);
   ("rzyx", Code 0 f f t); ("rxyx", Code 0 f t t); ("ryzx", Code 0 t f t);
   ("rxzx", Code 0 t t t); ("rxzy", Code 1 f f t); ("ryzy", Code 1 f t t);
   ("rzxy", Code 1 t f t); ("ryxy", Code 1 t t t); ("ryxz", Code 2 f f t);
   ("rzxz", Code 2 f t t); ("rxyz", Code 2 t f t); ("rzyz", Code 2 t t t)].
Definition next_axis (n : nat) : nat := match n with 0 => 1 | 1 => 2 | 2 => 0 | _ => 1 end%nat.
Definition code_eqb (a b : code) : bool :=
  ((firstaxis a =? firstaxis b)%nat && Bool.eqb (parity a) (parity b) && Bool.eqb (repetition a) (repetition b)
   && Bool.eqb (frame a) (frame b))%bool.
(** str.lower of ASCII letters *)
Definition lower_ascii (c : Ascii.ascii) : Ascii.ascii :=
  let n := Ascii.nat_of_ascii c in if ((65 <=? n) && (n <=? 90))%nat%bool then Ascii.ascii_of_nat (n + 32) else c.
Fixpoint lower (s : string) : string :=
  match s with EmptyString => EmptyString | String c r => String (lower_ascii c) (lower r) end.
(** the axes argument: a string or a tuple *)
Inductive axes_arg := Name (s : string) | Tuple (c : code).
Definition lookup (s : string) : option code :=
  match find (fun kv => String.eqb (fst kv) s) axes2tuple with Some kv => Some (snd kv) | None => None end.
(** [_TUPLE2AXES] has the values of [_AXES2TUPLE] as keys *)
Definition valid_tuple (c : code) : bool := existsb (fun kv => code_eqb (snd kv) c) axes2tuple.
(** 1069-1073, without lower() *)
Definition decode (a : axes_arg) : res code :=
  match a with
  | Name s => match lookup s with Some c => Ok c | None => Raise KeyError end
  | Tuple c => if valid_tuple c then Ok c else Raise KeyError
  end.
(** 1130-1134 and 1192-1196, with lower() *)
Definition decode_lower (a : axes_arg) : res code :=
  match a with
  | Name s => match lookup (lower s) with Some c => Ok c | None => Raise KeyError end
  | Tuple c => if valid_tuple c then Ok c else Raise KeyError
  end.
Definition b2n (b : bool) : nat := if b then 1%nat else 0%nat.
Definition axis_j (c : code) : nat := next_axis (firstaxis c + b2n (parity c)).
Definition axis_k (c : code) : nat := next_axis (firstaxis c + 1 - b2n (parity c)).

(** euler_matrix, 1075-1109 *)
Definition euler_coded (ai aj ak : R) (c : code) : mat4 :=
  let i := firstaxis c in let j := axis_j c in let k := axis_k c in
  let '(ai, ak) := if frame c then (ak, ai) else (ai, ak) in
  let '(ai, aj, ak) := if parity c then (- ai, - aj, - ak) else (ai, aj, ak) in
  let si := sin ai in let sj := sin aj in let sk := sin ak in
  let ci := cos ai in let cj := cos aj in let ck := cos ak in
  let cc := ci * ck in let cs := ci * sk in
  let sc := si * ck in let ss := si * sk in
  let m := identity4 in
  if repetition c then
    let m := mset m i i cj in
    let m := mset m i j (sj * si) in
    let m := mset m i k (sj * ci) in
    let m := mset m j i (sj * sk) in
    let m := mset m j j (- cj * ss + cc) in
    let m := mset m j k (- cj * cs - sc) in
    let m := mset m k i (- sj * ck) in
    let m := mset m k j (cj * sc + cs) in
    mset m k k (cj * cc - ss)
  else
    let m := mset m i i (cj * ck) in
    let m := mset m i j (sj * sc - cs) in
    let m := mset m i k (sj * cc + ss) in
    let m := mset m j i (cj * sk) in
    let m := mset m j j (sj * ss + cc) in
    let m := mset m j k (sj * cs - sc) in
    let m := mset m k i (- sj) in
    let m := mset m k j (cj * si) in
    mset m k k (cj * ci).
Definition euler_matrix (ai aj ak : R) (axes : axes_arg) : res mat4 :=
  bind (decode axes) (fun c => Ok (euler_coded ai aj ak c)).

(** euler_from_matrix, 1136-1167 *)
Definition euler_from_coded (m : mat4) (c : code) : R * R * R :=
  let i := firstaxis c in let j := axis_j c in let k := axis_k c in
  let '(ax, ay, az) :=
    if repetition c then
      let sy := sqrt (m i j * m i j + m i k * m i k) in
      if Rlt_dec eps sy then (atan2 (m i j) (m i k), atan2 sy (m i i), atan2 (m j i) (- m k i))
      else (atan2 (- m j k) (m j j), atan2 sy (m i i), 0)
    else
      let cy := sqrt (m i i * m i i + m j i * m j i) in
      if Rlt_dec eps cy then (atan2 (m k j) (m k k), atan2 (- m k i) cy, atan2 (m j i) (m i i))
      else (atan2 (- m j k) (m j j), atan2 (- m k i) cy, 0) in
  let '(ax, ay, az) := if parity c then (- ax, - ay, - az) else (ax, ay, az) in
  if frame c then (az, ay, ax) else (ax, ay, az).
Definition euler_from_matrix (m : mat4) (axes : axes_arg) : res (R * R * R) :=
  bind (decode_lower axes) (fun c => Ok (euler_from_coded m c)).

(** quaternion_from_euler, 1198-1235 *)
Definition quaternion_from_euler_coded (ai aj ak : R) (c : code) : vec :=
  let i := (firstaxis c + 1)%nat in
  let j := (next_axis (i + b2n (parity c) - 1) + 1)%nat in
  let k := (next_axis (i - b2n (parity c)) + 1)%nat in
  let '(ai, ak) := if frame c then (ak, ai) else (ai, ak) in
  let aj := if parity c then - aj else aj in
  let ai := ai / 2 in let aj := aj / 2 in let ak := ak / 2 in
  let ci := cos ai in let si := sin ai in
  let cj := cos aj in let sj := sin aj in
  let ck := cos ak in let sk := sin ak in
  let cc := ci * ck in let cs := ci * sk in
  let sc := si * ck in let ss := si * sk in
  let q := fun _ => 0 in
  let q := if repetition c then
             vset (vset (vset (vset q 0 (cj * (cc - ss))) i (cj * (cs + sc))) j (sj * (cc + ss))) k (sj * (cs - sc))
           else
             vset (vset (vset (vset q 0 (cj * cc + sj * ss)) i (cj * sc - sj * cs)) j (cj * ss + sj * cc)) k (cj * cs - sj * sc) in
  if parity c then vset q j (q j * - 1) else q.
Definition quaternion_from_euler (ai aj ak : R) (axes : axes_arg) : res vec :=
  bind (decode_lower axes) (fun c => Ok (quaternion_from_euler_coded ai aj ak c)).

(** ** Quaternions.  quaternion_about_axis, 1246-1251 *)
Definition quaternion_about_axis (angle : R) (axis : vec) : vec :=
  let q := vec4 0 (axis 0%nat) (axis 1%nat) (axis 2%nat) in
  let qlen := norm4 q in
  let q := if Rlt_dec eps qlen then vscale (sin (angle / 2) / qlen) q else q in
  vset q 0 (cos (angle / 2)).
(** quaternion_matrix, 1268-1278 *)
Definition quaternion_matrix (quaternion : vec) : mat4 :=
  let n := dot4 quaternion quaternion in
  if Rlt_dec n eps then identity4
  else
    let q := vscale (sqrt (2 / n)) quaternion in
    let q := outer q q in
    rows4 (vec4 (1 - q 2%nat 2%nat - q 3%nat 3%nat) (q 1%nat 2%nat - q 3%nat 0%nat) (q 1%nat 3%nat + q 2%nat 0%nat) 0)
          (vec4 (q 1%nat 2%nat + q 3%nat 0%nat) (1 - q 1%nat 1%nat - q 3%nat 3%nat) (q 2%nat 3%nat - q 1%nat 0%nat) 0)
          (vec4 (q 1%nat 3%nat - q 2%nat 0%nat) (q 2%nat 3%nat + q 1%nat 0%nat) (1 - q 1%nat 1%nat - q 2%nat 2%nat) 0)
          (vec4 0 0 0 1).
(** quaternion_from_matrix, 1315-1363; [eigmax] is the column of eigh's
    eigenvectors for the largest eigenvalue; eigh reads the lower triangle *)
Definition kmatrix (m : mat4) : mat4 :=
  let k := rows4 (vec4 (m 0%nat 0%nat - m 1%nat 1%nat - m 2%nat 2%nat) 0 0 0)
        (vec4 (m 0%nat 1%nat + m 1%nat 0%nat) (m 1%nat 1%nat - m 0%nat 0%nat - m 2%nat 2%nat) 0 0)
        (vec4 (m 0%nat 2%nat + m 2%nat 0%nat) (m 1%nat 2%nat + m 2%nat 1%nat) (m 2%nat 2%nat - m 0%nat 0%nat - m 1%nat 1%nat) 0)
        (vec4 (m 2%nat 1%nat - m 1%nat 2%nat) (m 0%nat 2%nat - m 2%nat 0%nat) (m 1%nat 0%nat - m 0%nat 1%nat)
              (m 0%nat 0%nat + m 1%nat 1%nat + m 2%nat 2%nat)) in
  fun i j => k i j / 3.
Definition lower_triangle (m : mat4) : mat4 := fun i j => if (j <=? i)%nat then m i j else m j i.
Definition quaternion_from_matrix (eigmax : mat4 -> vec) (m : mat4) (isprecise : bool) : vec :=
  let q :=
    if isprecise then
      let t := m 0%nat 0%nat + m 1%nat 1%nat + m 2%nat 2%nat + m 3%nat 3%nat in
      let '(t, q) :=
        if Rlt_dec (m 3%nat 3%nat) t then
          (t, vec4 t (m 2%nat 1%nat - m 1%nat 2%nat) (m 0%nat 2%nat - m 2%nat 0%nat) (m 1%nat 0%nat - m 0%nat 1%nat))
        else
          let '(i, j, k) := (0%nat, 1%nat, 2%nat) in
          let '(i, j, k) := if Rlt_dec (m 0%nat 0%nat) (m 1%nat 1%nat) then (1%nat, 2%nat, 0%nat) else (i, j, k) in
          let '(i, j, k) := if Rlt_dec (m i i) (m 2%nat 2%nat) then (2%nat, 0%nat, 1%nat) else (i, j, k) in
          let t := m i i - (m j j + m k k) + m 3%nat 3%nat in
          let q := fun _ => 0 in
          let q := vset (vset (vset (vset q i t) j (m i j + m j i)) k (m k i + m i k)) 3 (m k j - m j k) in
          (t, vec4 (q 3%nat) (q 0%nat) (q 1%nat) (q 2%nat)) in
      vscale (/ 2 / sqrt (t * m 3%nat 3%nat)) q
    else
      let v := eigmax (lower_triangle (kmatrix m)) in
      vec4 (v 3%nat) (v 0%nat) (v 1%nat) (v 2%nat) in
  if Rlt_dec (q 0%nat) 0 then vneg q else q.
(** quaternion_multiply, 1374-1380 *)
Definition quaternion_multiply (q1 q0 : vec) : vec :=
  let w0 := q0 0%nat in let x0 := q0 1%nat in let y0 := q0 2%nat in let z0 := q0 3%nat in
  let w1 := q1 0%nat in let x1 := q1 1%nat in let y1 := q1 2%nat in let z1 := q1 3%nat in
  vec4 (- x1 * x0 - y1 * y0 - z1 * z0 + w1 * w0)
       (x1 * w0 + y1 * z0 - z1 * y0 + w1 * x0)
       (- x1 * z0 + y1 * w0 + z1 * x0 + w1 * y0)
       (x1 * y0 - y1 * x0 + z1 * w0 + w1 * z0).
(** quaternion_conjugate, 1392-1394, and quaternion_inverse, 1406-1408 *)
Definition quaternion_conjugate (q : vec) : vec := fun k => if (k =? 0)%nat then q k else - q k.
Definition quaternion_inverse (quaternion : vec) : vec :=
  let q := quaternion_conjugate quaternion in fun k => q k / dot4 q q.
(** quaternion_slerp, 1449-1469; [spin] may be any integer *)
Definition quaternion_slerp (quat0 quat1 : vec) (fraction : R) (spin : Z) (shortestpath : bool) : vec :=
  let q0 := unit4 quat0 in
  let q1 := unit4 quat1 in
  if Req_EM_T fraction 0 then q0
  else if Req_EM_T fraction 1 then q1
  else
    let d := dot4 q0 q1 in
    if Rlt_dec (Rabs (Rabs d - 1)) eps then q0
    else
      let '(d, q1) := if shortestpath then (if Rlt_dec d 0 then (- d, vneg q1) else (d, q1)) else (d, q1) in
      let angle := acos d + IZR spin * PI in
      if Rlt_dec (Rabs angle) eps then q0
      else
        let isin := 1 / sin angle in
        vplus (vscale (sin ((1 - fraction) * angle) * isin) q0) (vscale (sin (fraction * angle) * isin) q1).
(** random_quaternion, 1491-1500; [rand] are the three variates *)
Definition random_quaternion (r0 r1 r2 : R) : vec :=
  let s1 := sqrt (1 - r0) in
  let s2 := sqrt r0 in
  let pi2 := PI * 2 in
  let t1 := pi2 * r1 in
  let t2 := pi2 * r2 in
  vec4 (cos t2 * s2) (sin t1 * s1) (cos t1 * s1) (sin t2 * s2).
Definition random_rotation_matrix (r0 r1 r2 : R) : mat4 := quaternion_matrix (random_quaternion r0 r1 r2).

(** ** Arcball.  A float vector is a vector or has nan in all components. *)
Definition fvec := option vec.
(** unit_vector of a vector of 3, 1751-1755 *)
Definition funit (v : vec) : fvec := if Req_EM_T (dot3 v v) 0 then None else Some (unit3 v).
(** arcball_map_to_sphere, 1628-1637; a radius of 0 divides by zero *)
Definition map_to_sphere (point center : R * R) (radius : R) : res vec :=
  if Req_EM_T radius 0 then Raise ZeroDivisionError
  else
    let v0 := (fst point - fst center) / radius in
    let v1 := (snd center - snd point) / radius in
    let n := v0 * v0 + v1 * v1 in
    if Rlt_dec 1 n then let n := sqrt n in Ok (vec3 (v0 / n) (v1 / n) 0)
    else Ok (vec3 v0 v1 (sqrt (1 - n))).
(** arcball_constrain_to_axis, 1642-1653 *)
Definition constrain_to_axis (point a : vec) : fvec :=
  let v := vminus point (vscale (dot3 a point) a) in
  let n := norm3 v in
  if Rlt_dec eps n then
    let v := if Rlt_dec (v 2%nat) 0 then vneg v else v in
    Some (fun k => v k / n)
  else if Req_EM_T (a 2%nat) 1 then Some (vec3 1 0 0)
  else funit (vec3 (- a 1%nat) (a 0%nat) 0).
(** the axes: unit_vector of what the user gave; [None] is nan *)
Definition constrain_faxis (point : vec) (a : fvec) : fvec :=
  match a with
  | Some a => constrain_to_axis point a
  | None => None  (* n is nan, then [a[2] == 1.0] is false and the last line has nan *)
  end.
(** arcball_nearest_axis, 1658-1666: comparisons with nan are false *)
Definition nearest_axis (point : vec) (axes : list fvec) : option fvec :=
  fst (fold_left (fun st axis =>
         match constrain_faxis point axis with
         | Some c => let t := dot3 c point in if Rlt_dec (snd st) t then (Some axis, t) else st
         | None => st
         end) axes (None, - 1)).
Record arcball := Arcball {
  ab_axis : option fvec; ab_axes : option (list fvec); ab_radius : R; ab_center : R * R;
  ab_vdown : fvec; ab_constrain : bool; ab_qdown : fvec; ab_qnow : fvec; ab_qpre : fvec }.
(** __init__, 1537-1560 *)
Inductive initial := INone | IMatrix (m : mat4) | IQuat (q : vec) | IOther.
Definition arcball_init (eigmax : mat4 -> vec) (i : initial) : res arcball :=
  let mk q := Ok (Arcball None None 1 (0, 0) (Some (vec3 0 0 1)) false q q q) in
  match i with
  | INone => mk (Some (vec4 1 0 0 0))
  | IMatrix m => mk (Some (quaternion_from_matrix eigmax m false))
  | IQuat q => mk (if Req_EM_T (dot4 q q) 0 then None else Some (unit4 q))
  | IOther => Raise ValueError
  end.
Inductive event :=
| Place (center : R * R) (radius : R)
| SetAxes (axes : list vec)
| Constrain (b : bool)
| Down (point : R * R)
| Drag (point : R * R)
| Next (acceleration : R).
Definition arcball_place (center : R * R) (radius : R) (b : arcball) : arcball :=
  Arcball (ab_axis b) (ab_axes b) radius center (ab_vdown b) (ab_constrain b) (ab_qdown b) (ab_qnow b) (ab_qpre b).
(** 1575-1580: [axes] is a tuple and never None *)
Definition arcball_setaxes (axes : list vec) (b : arcball) : arcball :=
  Arcball (ab_axis b) (Some (map funit axes)) (ab_radius b) (ab_center b) (ab_vdown b) (ab_constrain b) (ab_qdown b) (ab_qnow b) (ab_qpre b).
Definition arcball_constrain (c : bool) (b : arcball) : arcball :=
  Arcball (ab_axis b) (ab_axes b) (ab_radius b) (ab_center b) (ab_vdown b) c (ab_qdown b) (ab_qnow b) (ab_qpre b).
(** 1592-1600: without a nearest axis [axis[2]] of array(None) is an
    IndexError.  The state is that left behind by an exception, too. *)
Definition arcball_down (point : R * R) (b : arcball) : arcball * option exn :=
  match map_to_sphere point (ab_center b) (ab_radius b) with
  | Raise e => (b, Some e)
  | Ok vdown =>
      let mk axis v := Arcball axis (ab_axes b) (ab_radius b) (ab_center b) v (ab_constrain b) (ab_qnow b) (ab_qnow b) (ab_qnow b) in
      match ab_constrain b, ab_axes b with
      | true, Some axes =>
          match nearest_axis vdown axes with
          | Some axis => (mk (Some axis) (constrain_faxis vdown axis), None)
          | None => (mk (ab_axis b) (Some vdown), Some IndexError)
          end
      | _, _ => (mk None (Some vdown), None)
      end
  end.
(** 1602-1613: a nan in [vdown] or [vnow] makes the quaternion nan *)
Definition arcball_drag (point : R * R) (b : arcball) : arcball * option exn :=
  match map_to_sphere point (ab_center b) (ab_radius b) with
  | Raise e => (b, Some e)
  | Ok vnow =>
      let vnow := match ab_axis b with Some axis => constrain_faxis vnow axis | None => Some vnow end in
      let q := match ab_vdown b, vnow with
               | Some v, Some w =>
                   let t := cross v w in
                   if Rlt_dec (dot3 t t) eps then ab_qdown b
                   else match ab_qdown b with
                        | Some qd => Some (quaternion_multiply (vec4 (dot3 v w) (t 0%nat) (t 1%nat) (t 2%nat)) qd)
                        | None => None
                        end
               | _, _ => None
               end in
      (Arcball (ab_axis b) (ab_axes b) (ab_radius b) (ab_center b) (ab_vdown b) (ab_constrain b) (ab_qdown b) q (ab_qnow b), None)
  end.
(** 1615-1618: [False] is the spin *)
Definition arcball_next (acceleration : R) (b : arcball) : arcball :=
  let q := match ab_qpre b, ab_qnow b with
           | Some p, Some n => Some (quaternion_slerp p n (2 + acceleration) 0 true)
           | _, _ => None
           end in
  Arcball (ab_axis b) (ab_axes b) (ab_radius b) (ab_center b) (ab_vdown b) (ab_constrain b) (ab_qdown b) q (ab_qnow b).
Definition arcball_step (b : arcball) (e : event) : arcball * option exn :=
  match e with
  | Place c r => (arcball_place c r b, None)
  | SetAxes l => (arcball_setaxes l b, None)
  | Constrain c => (arcball_constrain c b, None)
  | Down p => arcball_down p b
  | Drag p => arcball_drag p b
  | Next a => (arcball_next a b, None)
  end.
(** all events, whatever exceptions the application has caught *)
Definition arcball_run (l : list event) (b : arcball) : arcball := fold_left (fun b e => fst (arcball_step b e)) l b.
(** matrix, 1620-1622; [None] is nan *)
Definition arcball_matrix (b : arcball) : option mat4 :=
  match ab_qnow b with Some q => Some (quaternion_matrix q) | None => None end.

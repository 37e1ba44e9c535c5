(** Model of the matrices, quaternions and Arcball functions of the extension
    module electrode/transformations.c.  transformations.py ends with
    _import_module('_transformations'), so these functions take the place of the
    Python ones wherever the extension has been built (setup.py 86-88).

    Real numbers in place of doubles: rounding, infinities and nan are not
    modelled, and the decimal constants DEG2RAD, TWOPI and M_PI stand for pi/180,
    2 pi and pi; EPSILON is 2**-50.  Allocation does not fail. *)
From Verif Require Import Base ModelTrans.
Open Scope R_scope.
Notation length := List.length.

(** What a call does: return a value, raise an exception, or run into behaviour
    C leaves undefined (a NULL pointer, a read or write past the end), which may
    take the interpreter down. *)
Inductive outcome (A : Type) : Type := Ret (a : A) | Exc (e : exn) | Undef.
Arguments Ret {A} a.
Arguments Exc {A} e.
Arguments Undef {A}.
Definition obind {A B} (x : outcome A) (f : A -> outcome B) : outcome B :=
  match x with Ret a => f a | Exc e => Exc e | Undef => Undef end.

(** An argument once numpy has made an array of doubles of it: one dimension, two
    dimensions, or anything else (another number of dimensions, or no array). *)
Inductive arg := Vec (l : list R) | Mat (rows cols : nat) (m : nat -> nat -> R) | Other.
Definition of_list (l : list R) : vec := fun k => nth k l 0.
(** PyConverter_DoubleVector3 and 4, transformations.c 869-911: one dimension, at
    least 3 (4) elements *)
Definition conv3 (a : arg) : outcome vec :=
  match a with Vec l => if (3 <=? length l)%nat then Ret (of_list l) else Exc ValueError | _ => Exc ValueError end.
Definition conv4 (a : arg) : outcome vec :=
  match a with Vec l => if (4 <=? length l)%nat then Ret (of_list l) else Exc ValueError | _ => Exc ValueError end.
(** PyConverter_DoubleMatrix44, 824-844 *)
Definition conv44 (a : arg) : outcome mat4 :=
  match a with Mat r c m => if ((r =? 4) && (c =? 4))%nat%bool then Ret m else Exc ValueError | _ => Exc ValueError end.
(** PyConverter_DoubleVector3OrNone, 936-960 *)
Definition conv3_or_none (a : option arg) : outcome (option vec) :=
  match a with None => Ret None | Some a => obind (conv3 a) (fun v => Ret (Some v)) end.

(** ISZERO and NOTZERO, 92-93 *)
Definition iszero (x : R) : bool := if Rlt_dec x eps then if Rlt_dec (- eps) x then true else false else false.
Definition notzero (x : R) : bool := if Rlt_dec eps x then true else if Rlt_dec x (- eps) then true else false.
(** an array of 16 doubles, row by row *)
Definition arr16 (a b c d e f g h i j k l m n o p : R) : mat4 :=
  rows4 (vec4 a b c d) (vec4 e f g h) (vec4 i j k l) (vec4 m n o p).
(** M[k] of a 4 x 4 array *)
Definition at16 (m : mat4) (k : nat) : R := m (k / 4)%nat (k mod 4)%nat.

(** ** is_same_transform, 1018-1065 *)
Fixpoint all_below (n : nat) (p : nat -> bool) : bool := match n with O => true | S k => (all_below k p && p k)%bool end.
Definition c_is_same_transform (matrix0 matrix1 : arg) : outcome bool :=
  obind (conv44 matrix0) (fun M0 => obind (conv44 matrix1) (fun M1 =>
  let t0 := at16 M0 15 in let t1 := at16 M1 15 in
  if (iszero t0 || iszero t1)%bool then Ret false
  else Ret (all_below 16 (fun i => let t := at16 M1 i / t1 in
              if Rlt_dec (/ 10 ^ 8 + / 10 ^ 5 * Rabs t) (Rabs (at16 M0 i / t0 - t)) then false else true)))).

(** ** identity_matrix, 1072-1098 *)
Definition c_identity_matrix : outcome mat4 := Ret (arr16 1 0 0 0 0 1 0 0 0 0 1 0 0 0 0 1).

(** ** translation_matrix, 1105-1143 *)
Definition c_translation_matrix (direction : arg) : outcome mat4 :=
  obind (conv3 direction) (fun d =>
  Ret (arr16 1 0 0 (d 0%nat) 0 1 0 (d 1%nat) 0 0 1 (d 2%nat) 0 0 0 1)).

(** ** reflection_matrix, 1150-1210 *)
Definition c_reflection_matrix (point normal : arg) : outcome mat4 :=
  obind (conv3 point) (fun p => obind (conv3 normal) (fun n =>
  let nx := n 0%nat in let ny := n 1%nat in let nz := n 2%nat in
  let t := sqrt (nx * nx + ny * ny + nz * nz) in
  if Rlt_dec t eps then Exc ValueError else
  let nx := nx / t in let ny := ny / t in let nz := nz / t in
  let t := 2 * (p 0%nat * nx + p 1%nat * ny + p 2%nat * nz) in
  let m01 := - 2 * nx * ny in let m02 := - 2 * nx * nz in let m12 := - 2 * ny * nz in
  Ret (arr16 (1 - 2 * nx * nx) m01 m02 (nx * t)
             m01 (1 - 2 * ny * ny) m12 (ny * t)
             m02 m12 (1 - 2 * nz * nz) (nz * t)
             0 0 0 1))).

(** ** rotation_matrix, 1217-1302 *)
Definition c_rotation_matrix (angle : R) (direction : arg) (point : option arg) : outcome mat4 :=
  obind (conv3 direction) (fun d => obind (conv3_or_none point) (fun point =>
  let dx := d 0%nat in let dy := d 1%nat in let dz := d 2%nat in
  let sa := sin angle in let ca := cos angle in let ca1 := 1 - ca in
  let t := sqrt (dx * dx + dy * dy + dz * dz) in
  if Rlt_dec t eps then Exc ValueError else
  let dx := dx / t in let dy := dy / t in let dz := dz / t in
  let M0 := ca + dx * dx * ca1 in let M5 := ca + dy * dy * ca1 in let M10 := ca + dz * dz * ca1 in
  let s := dz * sa in let t := dx * dy * ca1 in
  let M1 := t - s in let M4 := t + s in
  let s := dy * sa in let t := dx * dz * ca1 in
  let M2 := t + s in let M8 := t - s in
  let s := dx * sa in let t := dy * dz * ca1 in
  let M6 := t - s in let M9 := t + s in
  let '(M3, M7, M11) :=
    match point with
    | Some p => (p 0%nat - (M0 * p 0%nat + M1 * p 1%nat + M2 * p 2%nat),
                 p 1%nat - (M4 * p 0%nat + M5 * p 1%nat + M6 * p 2%nat),
                 p 2%nat - (M8 * p 0%nat + M9 * p 1%nat + M10 * p 2%nat))
    | None => (0, 0, 0)
    end in
  Ret (arr16 M0 M1 M2 M3 M4 M5 M6 M7 M8 M9 M10 M11 0 0 0 1))).

(** ** projection_matrix, 1309-1466 *)
Definition c_projection_matrix (point normal : arg) (direction perspective : option arg) (pseudo : bool) : outcome mat4 :=
  obind (conv3 point) (fun p => obind (conv3 normal) (fun n =>
  obind (conv3_or_none direction) (fun direction => obind (conv3_or_none perspective) (fun perspective =>
  let px := p 0%nat in let py := p 1%nat in let pz := p 2%nat in
  let nx := n 0%nat in let ny := n 1%nat in let nz := n 2%nat in
  let t := sqrt (nx * nx + ny * ny + nz * nz) in
  if Rlt_dec t eps then Exc ValueError else
  let nx := nx / t in let ny := ny / t in let nz := nz / t in
  match perspective with
  | Some d =>
      let dx := d 0%nat in let dy := d 1%nat in let dz := d 2%nat in
      let t := (dx - px) * nx + (dy - py) * ny + (dz - pz) * nz in
      let M0 := t - dx * nx in let M5 := t - dy * ny in let M10 := t - dz * nz in
      let M1 := - dx * ny in let M2 := - dx * nz in
      let M4 := - dy * nx in let M6 := - dy * nz in
      let M8 := - dz * nx in let M9 := - dz * ny in
      let t := px * nx + py * ny + pz * nz in
      if pseudo then
        Ret (arr16 (M0 - nx * nx) (M1 - nx * ny) (M2 - nx * nz) (t * (dx + nx))
                   (M4 - nx * ny) (M5 - ny * ny) (M6 - ny * nz) (t * (dy + ny))
                   (M8 - nx * nz) (M9 - ny * nz) (M10 - nz * nz) (t * (dz + nz))
                   (- nx) (- ny) (- nz) (dx * nx + dy * ny + dz * nz))
      else
        Ret (arr16 M0 M1 M2 (t * dx) M4 M5 M6 (t * dy) M8 M9 M10 (t * dz)
                   (- nx) (- ny) (- nz) (dx * nx + dy * ny + dz * nz))
  | None =>
      match direction with
      | Some d =>
          let dx := d 0%nat in let dy := d 1%nat in let dz := d 2%nat in
          let scale := dx * nx + dy * ny + dz * nz in
          if iszero scale then Exc ValueError else
          let scale := - 1 / scale in
          let t := (px * nx + py * ny + pz * nz) * - scale in
          Ret (arr16 (1 + scale * dx * nx) (scale * dx * ny) (scale * dx * nz) (t * dx)
                     (scale * dy * nx) (1 + scale * dy * ny) (scale * dy * nz) (t * dy)
                     (scale * dz * nx) (scale * dz * ny) (1 + scale * dz * nz) (t * dz)
                     0 0 0 1)
      | None =>
          let m01 := - nx * ny in let m02 := - nx * nz in let m12 := - ny * nz in
          let t := px * nx + py * ny + pz * nz in
          Ret (arr16 (1 - nx * nx) m01 m02 (t * nx)
                     m01 (1 - ny * ny) m12 (t * ny)
                     m02 m12 (1 - nz * nz) (t * nz)
                     0 0 0 1)
      end
  end)))).

(** ** clip_matrix, 1473-1539 *)
Definition c_clip_matrix (left right bottom top hither yon : R) (perspective : bool) : outcome mat4 :=
  if Rle_dec right left then Exc ValueError
  else if Rle_dec top bottom then Exc ValueError
  else if Rle_dec yon hither then Exc ValueError
  else if perspective then
    let t := 2 * hither in
    if Rlt_dec hither eps then Exc ValueError else
    Ret (arr16 (t / (left - right)) 0 ((right + left) / (right - left)) 0
               0 (t / (bottom - top)) ((top + bottom) / (top - bottom)) 0
               0 0 ((yon + hither) / (hither - yon)) (t * yon / (yon - hither))
               0 0 (- 1) 0)
  else
    Ret (arr16 (2 / (right - left)) 0 0 ((right + left) / (left - right))
               0 (2 / (top - bottom)) 0 ((top + bottom) / (bottom - top))
               0 0 (2 / (yon - hither)) ((yon + hither) / (hither - yon))
               0 0 0 1).

(** ** scale_matrix, 1546-1619 *)
Definition c_scale_matrix (factor : R) (origin direction : option arg) : outcome mat4 :=
  obind (conv3_or_none origin) (fun origin => obind (conv3_or_none direction) (fun direction =>
  match direction with
  | None =>
      let '(a, b, c) := match origin with
                        | Some p => let f := 1 - factor in (f * p 0%nat, f * p 1%nat, f * p 2%nat)
                        | None => (0, 0, 0)
                        end in
      Ret (arr16 factor 0 0 a 0 factor 0 b 0 0 factor c 0 0 0 1)
  | Some d =>
      let dx := d 0%nat in let dy := d 1%nat in let dz := d 2%nat in
      let f := 1 - factor in
      let M0 := 1 - f * dx * dx in let M5 := 1 - f * dy * dy in let M10 := 1 - f * dz * dz in
      let f := f * - 1 in
      let m01 := f * dx * dy in let m02 := f * dx * dz in let m12 := f * dy * dz in
      let '(a, b, c) := match origin with
                        | Some p => let f := f * - (p 0%nat * dx + p 1%nat * dy + p 2%nat * dz) in (f * dx, f * dy, f * dz)
                        | None => (0, 0, 0)
                        end in
      Ret (arr16 M0 m01 m02 a m01 M5 m12 b m02 m12 M10 c 0 0 0 1)
  end)).

(** ** shear_matrix, 1626-1720 *)
Definition c_shear_matrix (angle : R) (direction point normal : arg) : outcome mat4 :=
  obind (conv3 direction) (fun d => obind (conv3 point) (fun p => obind (conv3 normal) (fun n =>
  let dx := d 0%nat in let dy := d 1%nat in let dz := d 2%nat in
  let nx := n 0%nat in let ny := n 1%nat in let nz := n 2%nat in
  let t := sqrt (dx * dx + dy * dy + dz * dz) in
  if Rlt_dec t eps then Exc ValueError else
  let dx := dx / t in let dy := dy / t in let dz := dz / t in
  let t := sqrt (nx * nx + ny * ny + nz * nz) in
  if Rlt_dec t eps then Exc ValueError else
  let nx := nx / t in let ny := ny / t in let nz := nz / t in
  if Rlt_dec (/ 10 ^ 6) (Rabs (nx * dx + ny * dy + nz * dz)) then Exc ValueError else
  let a := tan angle in
  let t := - a * (p 0%nat * nx + p 1%nat * ny + p 2%nat * nz) in
  Ret (arr16 (1 + a * dx * nx) (a * dx * ny) (a * dx * nz) (t * dx)
             (a * dy * nx) (1 + a * dy * ny) (a * dy * nz) (t * dy)
             (a * dz * nx) (a * dz * ny) (1 + a * dz * nz) (t * dz)
             0 0 0 1)))).

(** ** orthogonalization_matrix, 2047-2103; the square root of a negative number
    is nan, here [None] *)
Definition c_orthogonalization_matrix (lengths angles : arg) : outcome (option mat4) :=
  obind (conv3 lengths) (fun l => obind (conv3 angles) (fun a =>
  let la := l 0%nat in let lb := l 1%nat in
  let d2r := PI / 180 in
  let sa := sin (a 0%nat * d2r) in let ca := cos (a 0%nat * d2r) in
  let sb := sin (a 1%nat * d2r) in let cb := cos (a 1%nat * d2r) in
  let cg := cos (a 2%nat * d2r) in
  let t := ca * cb - cg in
  if Rlt_dec (Rabs (sa * sb)) eps then Exc ValueError
  else if Rlt_dec (Rabs (t - sa * sb)) eps then Exc ValueError
  else
    let t := t / (sa * sb) in
    if Rlt_dec (1 - t * t) 0 then Ret None else
    Ret (Some (arr16 (la * sb * sqrt (1 - t * t)) 0 0 0
                     (- la * sb * t) (lb * sa) 0 0
                     (la * cb) (lb * ca) (l 2%nat) 0
                     0 0 0 1)))).

(** ** Euler angles.  axis2tuple, 2110-2231.  The first four bytes of the string
    are read as an int, with the byte order of the machine. *)
Local Open Scope Z_scope.
Definition char_code (c : Ascii.ascii) : Z := Z.of_N (Ascii.N_of_ascii c).
Definition hash (little_endian : bool) (a b c d : Ascii.ascii) : Z :=
  if little_endian then char_code a + 256 * char_code b + 65536 * char_code c + 16777216 * char_code d
  else char_code d + 256 * char_code c + 65536 * char_code b + 16777216 * char_code a.
Definition switch : list (Z * Z * code) :=
  let f := false in let t := true in
  [(2054781043, 1937275258, Code 0 f f f); (2054781042, 1920498042, Code 2 t f t); (2037938802, 1920628857, Code 1 t f t);
   (2054716018, 1920628858, Code 2 f t t); (2054716019, 1937406074, Code 2 f t f); (2037938803, 1937406073, Code 2 f f f);
   (2038069618, 1920563833, Code 1 f t t); (2021292402, 1920563832, Code 0 t f t); (2054715762, 1920563322, Code 2 f f t);
   (2037938546, 1920563321, Code 1 t t t); (2021292146, 1920498296, Code 0 t t t); (2038069362, 1920498297, Code 1 f f t);
   (2021226611, 1937275256, Code 0 f t f); (2038069363, 1937275513, Code 0 t f f); (2054781554, 1920629114, Code 2 t t t);
   (2021227122, 1920629112, Code 0 f f t); (2021227123, 1937406328, Code 2 t f f); (2054781555, 1937406330, Code 2 t t f);
   (2021226610, 1920498040, Code 0 f t t); (2021292403, 1937341048, Code 1 f f f); (2038069619, 1937341049, Code 1 f t f);
   (2037938547, 1937340537, Code 1 t t f); (2054715763, 1937340538, Code 1 t f f); (2021292147, 1937275512, Code 0 t t f)].
Definition switch_on (h : Z) : option code :=
  match find (fun e => (fst (fst e) =? h) || (snd (fst e) =? h))%bool switch with Some e => Some (snd e) | None => None end.
Local Close Scope Z_scope.
(** the axes argument: left out, a string, a sequence of integers (that fit an
    int), or something else *)
Inductive c_axes := CNone | CName (s : string) | CTuple (l : list Z) | COther.
(** A string that is not 4 long is a sequence, too, but never of 4 items.  For a
    string with characters beyond ASCII, PyUnicode_AsASCIIString returns NULL,
    which PyBytes_AsString reads. *)
Definition axis2tuple (little_endian : bool) (axes : c_axes) : outcome code :=
  match axes with
  | CNone => Ret (Code 0 false false false)
  | CName (String a (String b (String c (String d EmptyString)))) =>
      if ((char_code a <? 128) && (char_code b <? 128) && (char_code c <? 128) && (char_code d <? 128))%Z%bool then
        match switch_on (hash little_endian a b c d) with Some k => Ret k | None => Exc ValueError end
      else Undef
  | CName _ => Exc ValueError
  | CTuple [f; p; r; m] =>
      if (((f =? 0) || (f =? 1) || (f =? 2)) && ((p =? 0) || (p =? 1)) && ((r =? 0) || (r =? 1)) && ((m =? 0) || (m =? 1)))%Z%bool
      then Ret (Code (Z.to_nat f) (p =? 1)%Z (r =? 1)%Z (m =? 1)%Z)
      else Exc ValueError
  | CTuple _ => Exc ValueError
  | COther => Exc ValueError
  end.
(** The array the result is written to has not been initialised: [m0] is what
    happens to be there.  2238-2334 *)
Definition c_euler_coded (m0 : mat4) (ai aj ak : R) (c : code) : mat4 :=
  let i := firstaxis c in
  let j := next_axis (i + b2n (parity c)) in
  let k := next_axis (i + 1 - b2n (parity c)) in
  let '(ai, ak) := if frame c then (ak, ai) else (ai, ak) in
  let '(ai, aj, ak) := if parity c then (- ai, - aj, - ak) else (ai, aj, ak) in
  let si := sin ai in let sj := sin aj in let sk := sin ak in
  let ci := cos ai in let cj := cos aj in let ck := cos ak in
  let cc := ci * ck in let cs := ci * sk in
  let sc := si * ck in let ss := si * sk in
  let m :=
    if repetition c then
      let m := mset m0 i i cj in
      let m := mset m i j (sj * si) in
      let m := mset m i k (sj * ci) in
      let m := mset m j i (sj * sk) in
      let m := mset m j j (- cj * ss + cc) in
      let m := mset m j k (- cj * cs - sc) in
      let m := mset m k i (- sj * ck) in
      let m := mset m k j (cj * sc + cs) in
      mset m k k (cj * cc - ss)
    else
      let m := mset m0 i i (cj * ck) in
      let m := mset m i j (sj * sc - cs) in
      let m := mset m i k (sj * cc + ss) in
      let m := mset m j i (cj * sk) in
      let m := mset m j j (sj * ss + cc) in
      let m := mset m j k (sj * cs - sc) in
      let m := mset m k i (- sj) in
      let m := mset m k j (cj * si) in
      mset m k k (cj * ci) in
  mset (mset (mset (mset (mset (mset (mset m 0 3 0) 1 3 0) 2 3 0) 3 0 0) 3 1 0) 3 2 0) 3 3 1.
Definition c_euler_matrix (little_endian : bool) (m0 : mat4) (ai aj ak : R) (axes : c_axes) : outcome mat4 :=
  obind (axis2tuple little_endian axes) (fun c => Ret (c_euler_coded m0 ai aj ak c)).

(** euler_from_matrix, 2341-2421 *)
Definition c_euler_from_coded (M : mat4) (c : code) : R * R * R :=
  let i := firstaxis c in
  let j := next_axis (i + b2n (parity c)) in
  let k := next_axis (i + 1 - b2n (parity c)) in
  let '(ai, aj, ak) :=
    if repetition c then
      let x := M i j in let y := M i k in let t := sqrt (x * x + y * y) in
      if Rlt_dec eps t then (atan2 (M i j) (M i k), atan2 t (M i i), atan2 (M j i) (- M k i))
      else (atan2 (- M j k) (M j j), atan2 t (M i i), 0)
    else
      let x := M i i in let y := M j i in let t := sqrt (x * x + y * y) in
      if Rlt_dec eps t then (atan2 (M k j) (M k k), atan2 (- M k i) t, atan2 (M j i) (M i i))
      else (atan2 (- M j k) (M j j), atan2 (- M k i) t, 0) in
  let '(ai, aj, ak) := if parity c then (- ai, - aj, - ak) else (ai, aj, ak) in
  if frame c then (ak, aj, ai) else (ai, aj, ak).
Definition c_euler_from_matrix (little_endian : bool) (matrix : arg) (axes : c_axes) : outcome (R * R * R) :=
  obind (conv44 matrix) (fun M => obind (axis2tuple little_endian axes) (fun c => Ret (c_euler_from_coded M c))).

(** quaternion_from_euler, 2428-2518; all four elements are written *)
Definition c_quaternion_from_euler (little_endian : bool) (q0 : vec) (ai aj ak : R) (axes : c_axes) : outcome vec :=
  obind (axis2tuple little_endian axes) (fun c =>
  let i := (firstaxis c + 1)%nat in
  let j := (next_axis (i + b2n (parity c) - 1) + 1)%nat in
  let k := (next_axis (i - b2n (parity c)) + 1)%nat in
  let '(ai, ak) := if frame c then (ak, ai) else (ai, ak) in
  let aj := if parity c then - aj else aj in
  let ai := ai / 2 in let aj := aj / 2 in let ak := ak / 2 in
  let si := sin ai in let sj := sin aj in let sk := sin ak in
  let ci := cos ai in let cj := cos aj in let ck := cos ak in
  let cc := ci * ck in let cs := ci * sk in
  let sc := si * ck in let ss := si * sk in
  let q := if repetition c then
             vset (vset (vset (vset q0 i (cj * (cs + sc))) k (sj * (cs - sc))) j (sj * (cc + ss))) 0 (cj * (cc - ss))
           else
             vset (vset (vset (vset q0 i (cj * sc - sj * cs)) k (cj * cs - sj * sc)) j (cj * ss + sj * cc)) 0 (cj * cc + sj * ss) in
  Ret (if parity c then vset q j (q j * - 1) else q)).

(** ** Quaternions.  quaternion_about_axis, 2525-2572 *)
Definition c_quaternion_about_axis (angle : R) (axis : arg) : outcome vec :=
  obind (conv3 axis) (fun a =>
  let t := sqrt (a 0%nat * a 0%nat + a 1%nat * a 1%nat + a 2%nat * a 2%nat) in
  if Rlt_dec eps t then
    let t := sin (angle / 2) / t in
    Ret (vec4 (cos (angle / 2)) (a 0%nat * t) (a 1%nat * t) (a 2%nat * t))
  else Ret (vec4 (cos (angle / 2)) (a 0%nat) (a 1%nat) (a 2%nat))).

(** quaternion_matrix of an array of 4 doubles, 674-723, which it normalises in
    place: the matrix and what the array holds afterwards *)
Definition c_unit_matrix (q : vec) : mat4 :=
  let x2 := q 1%nat + q 1%nat in let y2 := q 2%nat + q 2%nat in let z2 := q 3%nat + q 3%nat in
  let xx2 := q 1%nat * x2 in let yy2 := q 2%nat * y2 in let zz2 := q 3%nat * z2 in
  let yz2 := q 2%nat * z2 in let wx2 := q 0%nat * x2 in
  let xy2 := q 1%nat * y2 in let wz2 := q 0%nat * z2 in
  let xz2 := q 1%nat * z2 in let wy2 := q 0%nat * y2 in
  arr16 (1 - yy2 - zz2) (xy2 - wz2) (xz2 + wy2) 0
        (xy2 + wz2) (1 - xx2 - zz2) (yz2 - wx2) 0
        (xz2 - wy2) (yz2 + wx2) (1 - xx2 - yy2) 0
        0 0 0 1.
Definition c_qmatrix (q : vec) : mat4 * vec :=
  let n := sqrt (q 0%nat * q 0%nat + q 1%nat * q 1%nat + q 2%nat * q 2%nat + q 3%nat * q 3%nat) in
  if Rlt_dec n eps then (arr16 1 0 0 0 0 1 0 0 0 0 1 0 0 0 0 1, q)
  else let q' := fun k => if (k <? 4)%nat then q k / n else q k in (c_unit_matrix q', q').
(** quaternion_matrix, 2707-2740.  [shared]: the argument is an aligned,
    contiguous array of doubles, which PyArray_FROM_OTF hands on without a copy.
    The second part of the result is the content of the argument afterwards. *)
Definition c_quaternion_matrix (shared : bool) (quaternion : arg) : outcome (mat4 * arg) :=
  obind (conv4 quaternion) (fun q =>
  let '(m, q') := c_qmatrix q in
  Ret (m, match quaternion with Vec l => if shared then Vec (tab (length l) q') else quaternion | _ => quaternion end)).

(** quaternion_multiply, 2747-2787 *)
Definition c_quaternion_multiply (quaternion1 quaternion0 : arg) : outcome vec :=
  obind (conv4 quaternion1) (fun q1 => obind (conv4 quaternion0) (fun q0 =>
  Ret (vec4 (- q1 1%nat * q0 1%nat - q1 2%nat * q0 2%nat - q1 3%nat * q0 3%nat + q1 0%nat * q0 0%nat)
            (q1 1%nat * q0 0%nat + q1 2%nat * q0 3%nat - q1 3%nat * q0 2%nat + q1 0%nat * q0 1%nat)
            (- q1 1%nat * q0 3%nat + q1 2%nat * q0 0%nat + q1 3%nat * q0 1%nat + q1 0%nat * q0 2%nat)
            (q1 1%nat * q0 2%nat - q1 2%nat * q0 1%nat + q1 3%nat * q0 0%nat + q1 0%nat * q0 3%nat)))).
(** quaternion_conjugate, 2794-2829, and quaternion_inverse, 2836-2879 *)
Definition c_quaternion_conjugate (quaternion : arg) : outcome vec :=
  obind (conv4 quaternion) (fun q => Ret (vec4 (q 0%nat) (- q 1%nat) (- q 2%nat) (- q 3%nat))).
Definition c_quaternion_inverse (quaternion : arg) : outcome vec :=
  obind (conv4 quaternion) (fun q =>
  let n := q 0%nat * q 0%nat + q 1%nat * q 1%nat + q 2%nat * q 2%nat + q 3%nat * q 3%nat in
  if Rlt_dec n eps then Exc ValueError
  else Ret (vec4 (q 0%nat / n) (- q 1%nat / n) (- q 2%nat / n) (- q 3%nat / n))).
(** quaternion_slerp, 2886-2976.  After an argument that is no quaternion,
    Py_DECREF is given the NULL pointer of that argument or of the next. *)
Definition c_quaternion_slerp (quat0 quat1 : arg) (fraction : R) (spin : Z) (shortestpath : bool) : outcome vec :=
  match conv4 quat0, conv4 quat1 with
  | Ret q0, Ret q1 =>
      let n := sqrt (q0 0%nat * q0 0%nat + q0 1%nat * q0 1%nat + q0 2%nat * q0 2%nat + q0 3%nat * q0 3%nat) in
      if Rlt_dec n eps then Exc ValueError else
      let q := vec4 (q0 0%nat / n) (q0 1%nat / n) (q0 2%nat / n) (q0 3%nat / n) in
      let n := sqrt (q1 0%nat * q1 0%nat + q1 1%nat * q1 1%nat + q1 2%nat * q1 2%nat + q1 3%nat * q1 3%nat) in
      if Rlt_dec n eps then Exc ValueError else
      if Rlt_dec (Rabs (Rabs fraction - 1)) eps then Ret (vec4 (q1 0%nat / n) (q1 1%nat / n) (q1 2%nat / n) (q1 3%nat / n))
      else if notzero fraction then
        let a := (q 0%nat * q1 0%nat + q 1%nat * q1 1%nat + q 2%nat * q1 2%nat + q 3%nat * q1 3%nat) / n in
        if Rlt_dec eps (Rabs (Rabs a - 1)) then
          let '(a, flip) := if shortestpath then (if Rlt_dec a 0 then (- a, true) else (a, false)) else (a, false) in
          let a := acos a + IZR spin * PI in
          if notzero a then
            let s := 1 / sin a in
            let f0 := sin ((1 - fraction) * a) * s in
            let f1 := sin (fraction * a) * s / n in
            let f1 := if flip then - f1 else f1 in
            Ret (vec4 (q 0%nat * f0 + q1 0%nat * f1) (q 1%nat * f0 + q1 1%nat * f1)
                      (q 2%nat * f0 + q1 2%nat * f1) (q 3%nat * f0 + q1 3%nat * f1))
          else Ret q
        else Ret q
      else Ret q
  | _, _ => Undef
  end.

(** quaternion_from_matrix of an array of 16 doubles, 624-669; [None] is the
    return value -1.  The square root of a negative number is nan in C and 0
    here; rotation matrices do not get there. *)
Definition c_qfrom (m : mat4) : option vec :=
  let M := at16 m in
  if iszero (M 15%nat) then None else
  let q :=
    if Rlt_dec 0 (M 0%nat + M 5%nat + M 10%nat) then
      let s := / 2 / sqrt (M 0%nat + M 5%nat + M 10%nat + M 15%nat) in
      vec4 (/ 4 / s) ((M 9%nat - M 6%nat) * s) ((M 2%nat - M 8%nat) * s) ((M 4%nat - M 1%nat) * s)
    else if (if Rlt_dec (M 5%nat) (M 0%nat) then if Rlt_dec (M 10%nat) (M 0%nat) then true else false else false) then
      let s := / 2 / sqrt (M 0%nat - (M 5%nat + M 10%nat) + M 15%nat) in
      vec4 ((M 9%nat - M 6%nat) * s) (/ 4 / s) ((M 4%nat + M 1%nat) * s) ((M 2%nat + M 8%nat) * s)
    else if Rlt_dec (M 10%nat) (M 5%nat) then
      let s := / 2 / sqrt (M 5%nat - (M 0%nat + M 10%nat) + M 15%nat) in
      vec4 ((M 2%nat - M 8%nat) * s) ((M 4%nat + M 1%nat) * s) (/ 4 / s) ((M 9%nat + M 6%nat) * s)
    else
      let s := / 2 / sqrt (M 10%nat - (M 0%nat + M 5%nat) + M 15%nat) in
      vec4 ((M 4%nat - M 1%nat) * s) ((M 2%nat + M 8%nat) * s) ((M 9%nat + M 6%nat) * s) (/ 4 / s) in
  if Req_EM_T (M 15%nat) 1 then Some q
  else let s := 1 / sqrt (M 15%nat) in Some (fun k => q k * s).
(** quaternion_from_matrix with isprecise, 2603-2613.  On failure the thread
    state PyEval_RestoreThread is given is NULL, a fatal error. *)
Definition c_quaternion_from_matrix_precise (matrix : arg) : outcome vec :=
  obind (conv44 matrix) (fun m => match c_qfrom m with Some q => Ret q | None => Undef end).

(** random_quaternion, 2983-3039, and random_rotation_matrix, 3046-3133, with the
    variates given *)
Definition c_random_quaternion (rand : arg) : outcome vec :=
  obind (conv3 rand) (fun r =>
  let t := 2 * PI * r 1%nat in
  let r1 := sqrt (1 - r 0%nat) in
  let q1 := sin t * r1 in let q2 := cos t * r1 in
  let t := 2 * PI * r 2%nat in
  let r2 := sqrt (r 0%nat) in
  let q3 := sin t * r2 in let q0 := cos t * r2 in
  Ret (vec4 q0 q1 q2 q3)).
Definition c_random_rotation_matrix (rand : arg) : outcome mat4 :=
  obind (c_random_quaternion rand) (fun q => Ret (c_unit_matrix q)).

(** ** Arcball.  arcball_map_to_sphere, 3242-3324; a radius of 0 gives inf or nan,
    here [None] *)
Definition c_map_to_sphere (point center : R * R) (radius : R) : option vec :=
  if Req_EM_T radius 0 then None else
  let v0 := (fst point - fst center) / radius in
  let v1 := (snd center - snd point) / radius in
  let n := v0 * v0 + v1 * v1 in
  if Rlt_dec 1 n then let n := sqrt n in Some (vec3 (v0 / n) (v1 / n) 0)
  else Some (vec3 v0 v1 (sqrt (1 - n))).
(** arcball_constrain_to_axis, 3331-3390; [None] is nan *)
Definition c_constrain_to_axis (point axis : arg) : outcome fvec :=
  obind (conv3 point) (fun p => obind (conv3 axis) (fun a =>
  let n := p 0%nat * a 0%nat + p 1%nat * a 1%nat + p 2%nat * a 2%nat in
  let v0 := p 0%nat - a 0%nat * n in let v1 := p 1%nat - a 1%nat * n in let v2 := p 2%nat - a 2%nat * n in
  let n := sqrt (v0 * v0 + v1 * v1 + v2 * v2) in
  if Rlt_dec eps n then Ret (Some (vec3 (v0 / n) (v1 / n) (v2 / n)))
  else if Req_EM_T (a 2%nat) 1 then Ret (Some (vec3 1 0 0))
  else
    let n := sqrt (a 0%nat * a 0%nat + a 1%nat * a 1%nat) in
    if Req_EM_T n 0 then Ret None else Ret (Some (vec3 (- a 1%nat / n) (a 0%nat / n) 0)))).

(** Model of the inverse functions reflection_from_matrix, rotation_from_matrix,
    scale_from_matrix, projection_from_matrix and shear_from_matrix,
    electrode/transformations.py 273-721.  Real numbers in place of floats.
    numpy.linalg.eig is an argument: the list of its eigenvalues
    [wr + i wi] with their eigenvectors [vr + i vi], in the order returned. *)
From Verif Require Import Base ModelTrans.
Open Scope R_scope.
Notation length := List.length.

Record epair := EPair { wr : R; wi : R; vr : vec; vi : vec }.
(** numpy.linalg.eig of a 3 x 3 (block) and of a 4 x 4 matrix *)
Record eigs := Eigs { eig3 : mat4 -> list epair; eig4 : mat4 -> list epair }.
Definition transposed (m : mat4) : mat4 := fun i j => m j i.
(** [numpy.where(abs(numpy.real(w) - x) < tol)[0]] *)
Definition near (x tol : R) (l : list epair) : list epair :=
  filter (fun p => if Rlt_dec (Rabs (wr p - x)) tol then true else false) l.
(** [abs(numpy.real(w)) > 1e-8] *)
Definition nonzero (l : list epair) : list epair :=
  filter (fun p => if Rlt_dec (/ 10 ^ 8) (Rabs (wr p)) then true else false) l.
Definition tol8 : R := / 10 ^ 8.
Definition tol4 : R := / 10 ^ 4.
(** [numpy.real(V[:, i[0]]).squeeze()], resp. [i[-1]] *)
Definition first (l : list epair) : option vec := match l with [] => None | p :: _ => Some (vr p) end.
Definition final (l : list epair) : option vec := match rev l with [] => None | p :: _ => Some (vr p) end.
(** [point /= point[3]]; None stands for a vector with inf or nan *)
Definition fvec := option vec.
Definition homogeneous (v : vec) : fvec := if Req_EM_T (v 3%nat) 0 then None else Some (fun k => v k / v 3%nat).

(** ** reflection_from_matrix, 285-299 *)
Definition reflection_from_matrix (e : eigs) (m : mat4) : res (fvec * vec) :=
  match first (near (- 1) tol8 (eig3 e m)) with
  | None => Raise ValueError
  | Some normal =>
      match final (near 1 tol8 (eig4 e m)) with
      | None => Raise ValueError
      | Some point => Ok (homogeneous point, normal)
      end
  end.

(** ** rotation_from_matrix, 358-383 *)
Definition rotation_from_matrix (e : eigs) (m : mat4) : res (R * vec * fvec) :=
  match final (near 1 tol8 (eig3 e (transposed m))) with
  | None => Raise ValueError
  | Some direction =>
      match final (near 1 tol8 (eig4 e m)) with
      | None => Raise ValueError
      | Some point =>
          let d := direction in
          let cosa := (m 0%nat 0%nat + m 1%nat 1%nat + m 2%nat 2%nat - 1) / 2 in
          let sina :=
            if Rlt_dec tol8 (Rabs (d 2%nat)) then (m 1%nat 0%nat + (cosa - 1) * d 0%nat * d 1%nat) / d 2%nat
            else if Rlt_dec tol8 (Rabs (d 1%nat)) then (m 0%nat 2%nat + (cosa - 1) * d 0%nat * d 2%nat) / d 1%nat
            else (m 2%nat 1%nat + (cosa - 1) * d 1%nat * d 2%nat) / d 0%nat in
          Ok (atan2 sina cosa, direction, homogeneous point)
      end
  end.

(** ** scale_from_matrix, 437-458; the IndexError of [[0][0]] is caught *)
Definition scale_from_matrix (e : eigs) (m : mat4) : res (R * fvec * option vec) :=
  let factor := m 0%nat 0%nat + m 1%nat 1%nat + m 2%nat 2%nat - 2 in
  let '(factor, direction) :=
    match first (near factor tol8 (eig3 e m)) with
    | Some v => (factor, Some (fun k => v k / norm3 v))
    | None => ((factor + 2) / 3, None)
    end in
  match final (near 1 tol8 (eig4 e m)) with
  | None => Raise ValueError
  | Some origin => Ok (factor, homogeneous origin, direction)
  end.

(** ** projection_from_matrix, 555-593: point, normal, direction, perspective
    and pseudo; a perspective with inf or nan is [Some None] *)
Record projection := Projection { pt : fvec; nrm : vec; dirn : option vec; persp : option fvec; psd : bool }.
Definition projection_from_matrix (e : eigs) (m : mat4) (pseudo : bool) : res projection :=
  let l := eig4 e m in
  match final (near 1 tol8 l), pseudo with
  | Some point, false =>
      match first (near 0 tol8 (eig3 e m)) with
      | None => Raise ValueError
      | Some direction =>
          let direction := fun k => direction k / norm3 direction in
          match first (near 0 tol8 (eig3 e (transposed m))) with
          | Some normal => Ok (Projection (homogeneous point) (fun k => normal k / norm3 normal) (Some direction) None false)
          | None => Ok (Projection (homogeneous point) direction None None false)
          end
      end
  | _, _ =>
      match final (nonzero l) with
      | None => Raise ValueError
      | Some point =>
          let point := homogeneous point in
          let normal := fun k => - m 3%nat k in
          let perspective :=
            match point with
            | None => None
            | Some p =>
                if Req_EM_T (dot3 p normal) 0 then None
                else Some (fun k => m k 3%nat / dot3 p normal - (if pseudo then normal k else 0))
            end in
          Ok (Projection point normal None (Some perspective) pseudo)
      end
  end.

(** ** shear_from_matrix, 692-721: angle, direction and normal (None if one of
    them is nan), and the point *)
Definition shear_from_matrix (e : eigs) (m : mat4) : res (option (R * vec * vec) * fvec) :=
  let sel := near 1 tol4 (eig3 e m) in
  if (length sel <? 2)%nat then Raise ValueError
  else
    let rows := map vr sel in
    let step acc ij :=
      bind acc (fun '(lenorm, normal) =>
      bind (py_index rows (fst ij)) (fun a => bind (py_index rows (snd ij)) (fun b =>
      let n := cross a b in
      let w := norm3 n in
      Ok (if Rlt_dec lenorm w then (w, n) else (lenorm, normal))))) in
    bind (fold_left step [(0, 1); (0, 2); (1, 2)]%Z (Ok (- 1, fun _ => 0))) (fun '(lenorm, normal) =>
    let shear :=
      if Req_EM_T lenorm 0 then None
      else
        let normal := fun k => normal k / lenorm in
        let direction := fun i => dot3 (fun j => m i j - identity4 i j) normal in
        let angle := norm3 direction in
        if Req_EM_T angle 0 then None
        else Some (atan angle, (fun k => direction k / angle), normal) in
    match final (near 1 tol8 (eig4 e m)) with
    | None => Raise ValueError
    | Some point => Ok (shear, homogeneous point)
    end).

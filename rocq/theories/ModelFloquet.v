(** Model of nu_exp_det 33-40, nu_exp_d0ap, nu_exp_bla, nu_exp_ivp and init_sol
    of the class Mathieu, electrode/mathieu.py.  Floats are reals; a float that
    is inf or nan is [None] or [NaN]. *)
From Verif Require Import Base ModelMathieu.
Open Scope R_scope.
Notation length := List.length.

(** a characteristic exponent: a float, a numpy complex (then it is mu, not
    nu) or nan *)
Inductive exponent := Real (x : R) | Cplx (re im : R) | NaN.

(** np.arccosh of a complex number with imaginary part +0 and a real part
    above 1 or below -1 *)
Definition arccosh (y : R) : R * R :=
  (ln (Rabs y + sqrt (y ^ 2 - 1)), if Rlt_dec 0 y then 0 else PI).
(** np.arcsinh(np.sqrt(complex(x))) for x > 0 or x < -1 *)
Definition arcsinh_sqrt (x : R) : R * R :=
  if Rlt_dec 0 x then (ln (sqrt x + sqrt (x + 1)), 0)
  else (ln (sqrt (- x) + sqrt (- x - 1)), PI / 2).

(** ** nu_exp_det, 24-40.  [det] is numpy.linalg.det; an entry q/(4*n**2-a)
    with 4*n**2 = a is inf or nan (for numpy's doubles) and the determinant nan
    then: row n+ntr has it on both sides of the diagonal, elimination
    multiplies one of them by 0.  The square root of a negative a is nan, and
    comparisons with nan are false.  [np_complex]: numpy still has the alias
    np.complex (removed in 1.24). *)
Definition singular (a : R) (ntr : nat) : bool :=
  existsb (fun n => if Req_EM_T (4 * INR n ^ 2 - a) 0 then true else false) (seq 0 (ntr + 1)).
Definition nu_exp_det (np_complex : bool) (det : nat -> (nat -> nat -> R) -> R) (a q : R) (ntr : nat) : res exponent :=
  bind (hill_matrix a q ntr) (fun m =>
  if (singular a ntr || if Rlt_dec a 0 then true else false)%bool then Ok NaN
  else
    let rhs := det (2 * ntr + 1)%nat m * sin (PI / 2 * sqrt a) ^ 2 in
    if Rlt_dec rhs 0 then
      if np_complex then let c := arcsinh_sqrt (- rhs) in Ok (Cplx (2 / PI * fst c) (2 / PI * snd c)) else Raise AttributeError
    else if Rlt_dec 1 rhs then
      if np_complex then let c := arcsinh_sqrt (- rhs) in Ok (Cplx (2 / PI * fst c) (2 / PI * snd c)) else Raise AttributeError
    else Ok (Real (2 / PI * asin (sqrt rhs)))).

(** ** nu_exp_d0ap, 48-51, for numpy's doubles *)
Definition nu_exp_d0ap (a q : R) : exponent :=
  if Rlt_dec a 0 then NaN
  else if Req_EM_T (4 * sqrt a * (a - 1)) 0 then NaN
  else
    let cosnu := cos (PI * sqrt a) + PI * q ^ 2 / (4 * sqrt a * (a - 1)) * sin (PI * sqrt a)
                 + q ^ 4 * (PI ^ 4 / 96 - 25 * PI ^ 2 / 256) in
    if Rlt_dec 1 (Rabs cosnu) then NaN else Real (acos cosnu / PI).
(** ** nu_exp_bla, 58 *)
Definition nu_exp_bla (a q : R) : exponent :=
  if Rlt_dec (a + q ^ 2 / 2) 0 then NaN else Real (sqrt (a + q ^ 2 / 2)).

(** ** nu_exp_ivp, 75-90.  [solve f t0 t1 y0 t_eval] is scipy's solve_ivp: the
    columns of [sol.y], at the times of [t_eval] if given.  The result is the
    exponent and whether a warning is issued (after np.complex is read). *)
Definition rhs_ivp (a q : R) (t : R) (y : R * R) : R * R :=
  (snd y, - (a - 2 * q * cos (2 * t)) * fst y).
(** np.linspace(0., np.pi, nstep+1) *)
Definition linspace_pi (nstep : nat) : list R :=
  map (fun i => INR i * (PI / INR nstep)) (seq 0 (nstep + 1)).
Definition solver := (R -> R * R -> R * R) -> R -> R -> R * R -> option (list R) -> list (R * R).
Definition nu_exp_ivp (np_complex : bool) (solve : solver) (a q : R) (nstep : option nat) : res (exponent * bool) :=
  let sol := solve (rhs_ivp a q) 0 PI (1, 0) (option_map linspace_pi nstep) in
  bind (py_index sol (-1)) (fun col =>
  let y := fst col in
  if Rlt_dec 1 (Rabs y) then
    if np_complex then Ok (Cplx (fst (arccosh y) / PI) (snd (arccosh y) / PI), true) else Raise AttributeError
  else Ok (Real (acos y / PI), false)).

(** ** nu_tolerance, 107-117, for exponents of every kind: [type(nu_n) ==
    complex] is false for numpy's complex128; a difference with nan is not
    below tol; the difference of two complex numbers is compared by its
    modulus *)
Definition parts (e : exponent) : option (R * R) :=
  match e with Real x => Some (x, 0) | Cplx re im => Some (re, im) | NaN => None end.
Definition close (tol : R) (x y : exponent) : bool :=
  match parts x, parts y with
  | Some (a, b), Some (c, d) => if Rlt_dec (sqrt ((a - c) ^ 2 + (b - d) ^ 2)) tol then true else false
  | _, _ => false
  end.
Definition nu_tolerance_any (f : nat -> res exponent) (tol : R) (nstart : nat) : res (exponent * nat) :=
  (fix go (l : list nat) : res (exponent * nat) :=
     match l with
     | [] => Raise ValueError
     | i :: r =>
         let n := (nstart * (i + 1))%nat in
         bind (f n) (fun nu_n => bind (f (n * 2)%nat) (fun nu_2n =>
         if close tol nu_n nu_2n then Ok (nu_2n, (2 * n)%nat) else go r))
     end) (seq 0 100).

(** ** init_sol, 266-277.  The object has the attributes nu and Cn or has them
    not.  Complex numbers with imaginary part 0 compute like real ones.
    [COther]: lists with other complex numbers, inf or nan. *)
Inductive cns := CReal (ccn csn : list R) | COther.
Record object := Object { o_nu : option exponent; o_cn : option cns }.
Definition real_part (nu : exponent) : option R :=
  match nu with
  | Real x => Some x
  | Cplx re im => if Req_EM_T im 0 then Some re else None
  | NaN => None
  end.
Definition coefficients (a q : R) (nu : exponent) (nc ng : nat) : cns :=
  match real_part nu with
  | Some x => match coeff_Cn a q x nc ng with Ok (ccn, csn, _) => CReal ccn csn | Raise _ => COther end
  | None => COther
  end.
(** the exponent and the order nu_n, which only the mode 'det' binds *)
Definition init_nu (np_complex : bool) (det : nat -> (nat -> nat -> R) -> R) (solve : solver) (a q tol_nu : R) (mode : string)
    : res (exponent * option nat) :=
  if String.eqb mode "d0ap" then Ok (nu_exp_d0ap a q, None)
  else if String.eqb mode "det" then
    bind (nu_tolerance_any (nu_exp_det np_complex det a q) tol_nu 5) (fun r => Ok (fst r, Some (snd r)))
  else if String.eqb mode "ivp" then
    bind (nu_exp_ivp np_complex solve a q None) (fun r => Ok (fst r, None))
  else Raise ValueError.
Definition init_sol (np_complex : bool) (det : nat -> (nat -> nat -> R) -> R) (solve : solver)
    (a q : R) (nc : option nat) (ng : nat) (tol_nu : R) (mode : string) (o : object) : object * res Z :=
  match init_nu np_complex det solve a q tol_nu mode with
  | Raise e => (o, Raise e)
  | Ok (nu, nu_n) =>
      let o := Object (Some nu) (o_cn o) in
      match (match nc with Some n => Some n | None => nu_n end) with
      | None => (o, Raise UnboundLocalError)
      | Some nc => (Object (Some nu) (Some (coefficients a q nu nc ng)), Ok 0%Z)
      end
  end.
(** sol_y1 of the object, 293-303: an attribute that is missing raises; [None]
    stands for other complex numbers, inf or nan *)
Definition sol_y1_of (o : object) (t : R) (deri : nat) : res (option R) :=
  match o_nu o, o_cn o with
  | Some nu, Some (CReal ccn csn) =>
      Ok (match real_part nu with Some x => Some (y1 (Mathieu x ccn csn) t deri) | None => None end)
  | Some _, Some COther => Ok None
  | _, _ => Raise AttributeError
  end.

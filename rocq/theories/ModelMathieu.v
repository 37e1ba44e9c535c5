(** Model of the class Mathieu, electrode/mathieu.py.  Numbers are reals and
    divisions by zero raise, as they do for Python floats; numpy's doubles,
    which go on with inf, are not modelled.  Truncation orders are natural
    numbers. *)
From Verif Require Import Base.
Open Scope R_scope.
Notation length := List.length.

Definition divide (x y : R) : res R := if Req_EM_T y 0 then Raise ZeroDivisionError else Ok (x / y).
(** loops that may raise *)
Fixpoint loop {A B} (f : A -> B -> res A) (l : list B) (a : A) : res A :=
  match l with [] => Ok a | x :: r => bind (f a x) (loop f r) end.

(** gn, 119-123 *)
Definition gn (n : Z) (a q nu : R) : res R := divide (a - (nu + 2 * IZR n) ^ 2) q.
(** [1/(self.gn(n,a,q,nu)-x)] *)
Definition fraction (n : Z) (a q nu x : R) : res R := bind (gn n a q nu) (fun g => divide 1 (g - x)).

(** coeff_ratio, 190-200; the lists are never empty where [rn[-1]] and
    [rp[0]] are read *)
Definition coeff_ratio (a q nu : R) (nc ng : nat) : res (list R * list R) :=
  let zc := Z.of_nat nc in
  let zg := Z.of_nat ng in
  bind (bind (gn (zg + zc) a q nu) (divide 1)) (fun fracp =>
  bind (bind (gn (- zg - zc) a q nu) (divide 1)) (fun fracn =>
  bind (loop (fun fr i =>
          bind (fraction (- i) a q nu (fst fr)) (fun fracp =>
          bind (fraction i a q nu (snd fr)) (fun fracn => Ok (fracp, fracn))))
        (zrange (- zg - zc + 1) (- zc + 1)) (fracp, fracn)) (fun fr =>
  bind (loop (fun rr n =>
          bind (fraction (- n) a q nu (hd 0 (fst rr))) (fun fracp =>
          bind (fraction n a q nu (last (snd rr) 0)) (fun fracn =>
          Ok (fracp :: fst rr, snd rr ++ [fracn]))))
        (zrange (- zc + 1) 0) ([fst fr], [snd fr])) (fun rr =>
  Ok (snd rr, fst rr))))).

(** coeff_Cn, 217-228; [linspace(-nc, nc, 2*nc+1)] are the integers.  The
    sums are numpy's: 1/0 is inf there and any number here. *)
Definition coeff_Cn (a q nu : R) (nc ng : nat) : res (list R * list R * list R) :=
  bind (coeff_ratio a q nu nc ng) (fun r =>
  let '(rn, rp) := r in
  let '(cnp, cnn) := fold_left (fun st n =>
      let '(cnp, cnn) := st in
      (cnp ++ [last cnp 0 * nth n rp 0], hd 0 cnn * nth (length rn - n - 1) rn 0 :: cnn))
    (seq 0 nc) ([1], [1]) in
  let cn := removelast cnn ++ cnp in
  let vn := map (fun n => 2 * IZR n + nu) (zrange (- Z.of_nat nc) (Z.of_nat nc + 1)) in
  let scale_c := 1 / sumR cn in
  let scale_s := 1 / sumR (map2 Rmult vn cn) in
  Ok (map (fun c => c * scale_c) cn, map (fun c => c * scale_s) cn, cn)).

(** the attributes set by init_sol, 250-277: nu and Cn = (Ccn, Csn) *)
Record mathieu := Mathieu { m_nu : R; m_ccn : list R; m_csn : list R }.
(** sol_y1, 293-303, and sol_y2, 319-329: [None] is an object before
    init_sol *)
Definition trig1 (deri : nat) (x : R) : R := match deri mod 4 with 0%nat => cos x | 1%nat => sin x | 2%nat => cos x | _ => sin x end.
Definition trig2 (deri : nat) (x : R) : R := match deri mod 4 with 0%nat => sin x | 1%nat => cos x | 2%nat => sin x | _ => cos x end.
Definition minus1 (deri : nat) : R := match deri mod 4 with 0%nat => 1 | 1%nat => -1 | 2%nat => -1 | _ => 1 end.
Definition minus2 (deri : nat) : R := match deri mod 4 with 0%nat => 1 | 1%nat => 1 | 2%nat => -1 | _ => -1 end.
Definition series (nu : R) (cs : list R) (tri : R -> R) (minus t : R) (deri : nat) : R :=
  sumR (map2 (fun n c =>
    let n := INR n - (INR (length cs) - 1) / 2 in
    c * (nu + 2 * n) ^ deri * tri ((nu + 2 * n) * t) * minus) (seq 0 (length cs)) cs).
Definition y1 (m : mathieu) (t : R) (deri : nat) : R := series (m_nu m) (m_ccn m) (trig1 deri) (minus1 deri) t deri.
Definition y2 (m : mathieu) (t : R) (deri : nat) : R := series (m_nu m) (m_csn m) (trig2 deri) (minus2 deri) t deri.
Definition sol_y1 (o : option mathieu) (t : R) (deri : nat) : res R :=
  match o with Some m => Ok (y1 m t deri) | None => Raise AttributeError end.
Definition sol_y2 (o : option mathieu) (t : R) (deri : nat) : res R :=
  match o with Some m => Ok (y2 m t deri) | None => Raise AttributeError end.

(** init_value, 346-352.  The quotients are of numpy doubles; [np.array(A,B)]
    takes B for the dtype and raises a TypeError. *)
Definition superposition (m : mathieu) (y0 : R * R) (t0 : R) : R * R :=
  let den := y1 m t0 0 * y2 m t0 1 - y1 m t0 1 * y2 m t0 0 in
  ((fst y0 * y2 m t0 1 - snd y0 * y2 m t0 0) / den, - (fst y0 * y1 m t0 1 - snd y0 * y1 m t0 0) / den).
Definition np_array_dtype (a b : R) : res (R * R) := Raise TypeError.
Definition init_value (o : option mathieu) (y0 : R * R) (t0 : R) : res (R * R) :=
  if Req_EM_T t0 0 then Ok y0
  else match o with
       | None => Raise AttributeError
       | Some m => let ab := superposition m y0 t0 in np_array_dtype (fst ab) (snd ab)
       end.

(** nu_exp_det, 24-32: the matrix; rows that are written twice get the same *)
Definition hill_matrix (a q : R) (ntr : nat) : res (nat -> nat -> R) :=
  if (ntr =? 0)%nat then Raise IndexError
  else
    let off n := q / (4 * INR n ^ 2 - a) in
    let put (m : nat -> nat -> R) i j x := fun k l => if ((k =? i) && (l =? j))%nat%bool then x else m k l in
    let m := fold_left (fun m n =>
        let m := put m (n + ntr)%nat (n + ntr)%nat 1 in
        let m := put m (n + ntr)%nat (n + ntr + 1)%nat (off n) in
        let m := put m (n + ntr)%nat (n + ntr - 1)%nat (off n) in
        let m := put m (ntr - n)%nat (ntr - n)%nat 1 in
        let m := put m (ntr - n)%nat (ntr - n + 1)%nat (off n) in
        put m (ntr - n)%nat (ntr - n - 1)%nat (off n))
      (seq 0 ntr) (fun _ _ => 0) in
    let m := put m 0%nat 0%nat 1 in
    let m := put m (ntr + ntr)%nat (ntr + ntr)%nat 1 in
    let m := put m 0%nat 1%nat (off ntr) in
    Ok (put m (ntr + ntr)%nat (ntr + ntr - 1)%nat (off ntr)).
(** nu_tolerance, 107-117, for real exponents: the test [type(nu_n) ==
    complex] is never met, as numpy's are of the type complex128 *)
Definition nu_tolerance (nu_exp_det : nat -> R) (tol : R) (nstart : nat) : res (R * nat) :=
  (fix go (l : list nat) : res (R * nat) :=
     match l with
     | [] => Raise ValueError
     | i :: r =>
         let n := (nstart * (i + 1))%nat in
         if Rlt_dec (Rabs (nu_exp_det n - nu_exp_det (n * 2)%nat)) tol then Ok (nu_exp_det (n * 2)%nat, (2 * n)%nat)
         else go r
     end) (seq 0 100).

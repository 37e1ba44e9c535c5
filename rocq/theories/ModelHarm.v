(** Model of electrode/spherical_harmonics.py 6-190.  Floats are reals.
    scipy's p_roots (Gauss-Legendre points and weights), lpmn (associated
    Legendre functions) and numpy's integer power are arguments; gamma at
    positive integers is the factorial. *)
From Verif Require Import Base ModelTrans.
From Coquelicot Require Import Coquelicot.
Open Scope R_scope.
Notation length := List.length.

(** exp(1j*t) *)
Definition cis (t : R) : C := (cos t, sin t).
(** spherical_to_cartesian, 6-14, for one point *)
Definition spherical_to_cartesian (r theta phi : R) : R * R * R :=
  (r * Im (cis theta) * Re (cis phi), r * Im (cis theta) * Im (cis phi), r * Re (cis theta)).
(** cartesian_to_spherical, 17-26, for one point *)
Definition cartesian_to_spherical (x y z : R) : R * R * R :=
  let xy := x ^ 2 + y ^ 2 in
  (sqrt (xy + z ^ 2), atan2 (sqrt xy) z, atan2 y x).
(** derivatives_spherical_cartesian, 29-48, for one point.  Division by zero
    (numpy: inf or nan) is excluded by the theorems.  For another direction
    [m] is unbound. *)
Definition to_spherical_matrix (r theta phi : R) : list (list R) :=
  let ct := cos theta in let st := sin theta in let cp := cos phi in let sp := sin phi in
  [[cp * st; sp * st; ct]; [- sp / (r * st); cp / (r * st); 0]; [cp * ct / r; sp * ct / r; - st / r]].
Definition to_cartesian_matrix (r theta phi : R) : list (list R) :=
  let ct := cos theta in let st := sin theta in let cp := cos phi in let sp := sin phi in
  [[cp * st; - r * sp * st; r * cp * ct]; [sp * st; r * cp * st; r * sp * ct]; [ct; 0; - r * st]].
Definition derivatives_spherical_cartesian (d : list R) (r theta phi : R) (direction : string) : res (list R) :=
  let m := if String.eqb direction "to_spherical" then Ok (to_spherical_matrix r theta phi)
           else if String.eqb direction "to_cartesian" then Ok (to_cartesian_matrix r theta phi)
           else Raise UnboundLocalError in
  bind m (fun m => Ok (map (fun row => sumR (map2 Rmult row d)) m)).

(** ** SphericalHarmonics *)
(** indices, 115-122 *)
Definition indices (nmax : Z) : list (Z * Z * Z * Z) :=
  flat_map (fun n => map (fun m => (n, m, nmax + m, nmax - n - 1)%Z) (zrange (- n) 0)
                  ++ map (fun m => (n, m, m, n)%Z) (zrange 0 (n + 1))) (zrange 0 nmax).
(** 96-98: the arrays n and m, filled in the order of indices; [junk] is
    what np.empty leaves *)
Definition fill (l : list (Z * Z * Z * Z)) (junk : nat -> nat -> Z * Z) (p q : nat) : Z * Z :=
  fold_left (fun acc i => let '(n, m, p', q') := i in
    if (Z.eqb p' (Z.of_nat p) && Z.eqb q' (Z.of_nat q))%bool then (n, m) else acc) l (junk p q).
Record harmonics := Harmonics { nmax : nat; h_n : nat -> nat -> Z; h_m : nat -> nat -> Z;
  ptmn : nat -> nat -> nat -> R; ptmnw : nat -> nat -> nat -> R }.
Fixpoint collect_all (l : list (res R)) : res (list R) :=
  match l with [] => Ok [] | x :: r => bind x (fun a => bind (collect_all r) (fun b => Ok (a :: b))) end.
(** __init__, 88-107; [ipow e] is [(-1) ** e] for a numpy integer e *)
Definition harmonics_init (p_roots : nat -> res (list R * list R)) (lpmn : R -> nat -> nat -> R) (ipow : Z -> res R)
    (junk : nat -> nat -> Z * Z) (N : nat) : res harmonics :=
  bind (p_roots N) (fun xw =>
  let n p q := fst (fill (indices (Z.of_nat N)) junk p q) in
  let m p q := snd (fill (indices (Z.of_nat N)) junk p q) in
  let am p q := Z.abs_nat (m p q) in
  let b p q := (2 * IZR (n p q) + 1) / (4 * PI) * INR (fact (Z.to_nat (n p q - Z.abs (m p q))))
                 / INR (fact (Z.to_nat (n p q + Z.abs (m p q)))) in
  let e p q := if (m p q <? 0)%Z then m p q else 0%Z in
  bind (collect_all (map (fun pq => ipow (e (fst pq) (snd pq))) (list_prod (seq 0 N) (seq 0 N)))) (fun c =>
  let pt i p q := sqrt (b p q) * nth (p * N + q) c 0 * lpmn (nth i (fst xw) 0) (am p q) (Z.to_nat (n p q)) in
  Ok (Harmonics N n m pt (fun i p q => pt i p q * (nth i (snd xw) 0 * PI / INR N))))).

(** sums over range(n) *)
Definition csum {A} (l : list A) (f : A -> C) : C := fold_right Cplus (RtoC 0) (map f l).
(** np.fft.fft and ifft of one row *)
Definition fft (f : list C) : list C :=
  let M := length f in
  tab M (fun k => csum (seq 0 M) (fun j => Cmult (nth j f (RtoC 0)) (cis (- (2 * PI * INR j * INR k / INR M))))).
Definition ifft (g : list C) : list C :=
  let M := length g in
  tab M (fun j => Cmult (RtoC (/ INR M)) (csum (seq 0 M) (fun k => Cmult (nth k g (RtoC 0)) (cis (2 * PI * INR j * INR k / INR M))))).
Definition at2 (a : list (list C)) (p q : nat) : C := nth q (nth p a []) (RtoC 0).
Definition has_shape (a : list (list C)) (r c : nat) : bool :=
  ((length a =? r) && forallb (fun x => length x =? c) a)%nat%bool.
(** analysis, 149-164, of a 2-dimensional array; [ft[:, m]] with a negative
    m counts from the end *)
Definition analysis (h : harmonics) (f : list (list C)) : res (list (list C)) :=
  let N := nmax h in
  if has_shape f N (2 * N) then
    let ft := map fft f in
    Ok (tab N (fun p => tab N (fun q =>
      let k := (if (h_m h p q <? 0)%Z then h_m h p q + Z.of_nat (2 * N) else h_m h p q)%Z in
      csum (seq 0 N) (fun i => Cmult (RtoC (ptmnw h i p q)) (at2 ft i (Z.to_nat k))))))
  else Raise AssertionError.
(** synthesis, 166-190 *)
Definition synthesis (h : harmonics) (a : list (list C)) : res (list (list C)) :=
  let N := nmax h in
  if has_shape a N N then
    Ok (tab N (fun i =>
      let at_ p q := Cmult (RtoC (ptmn h i p q)) (at2 a p q) in
      let al := tab N (fun p => csum (seq 0 N) (fun q => if (p <=? q)%nat then at_ p q else RtoC 0)) in
      let ar := tab N (fun p => csum (seq 0 N) (fun q => if (q <? p)%nat then at_ p q else RtoC 0)) in
      map (fun z => Cmult (Cmult z (RtoC (INR N))) (RtoC 2)) (ifft (al ++ ar))))
  else Raise AssertionError.

(** Taylor terms of a field and real solid harmonics. *)
From Coquelicot Require Import Coquelicot.
From Verif Require Import Base.
Open Scope R_scope.

(** T(v, ..., v) for a tensor of order l: the sum over all index lists of
    T[i1, ..., il] v[i1] ... v[il] *)
Fixpoint contract (l : nat) (T : list nat -> R) (v : nat -> R) : R :=
  match l with
  | O => T []
  | S k => v 0%nat * contract k (fun i => T (0%nat :: i)) v
         + v 1%nat * contract k (fun i => T (1%nat :: i)) v
         + v 2%nat * contract k (fun i => T (2%nat :: i)) v
  end.
Definition vec (x y z : R) (i : nat) : R := match i with O => x | 1%nat => y | _ => z end.
(** the order l term of the Taylor series at displacement (x, y, z) *)
Definition taylor (l : nat) (T : list nat -> R) (x y z : R) : R := contract l T (vec x y z) / INR (fact l).

(** real and imaginary part of (x + i y)^m *)
Fixpoint powc (m : nat) (x y : R) : R * R :=
  match m with
  | O => (1, 0)
  | S k => (fst (powc k x y) * x - snd (powc k x y) * y, fst (powc k x y) * y + snd (powc k x y) * x)
  end.
(** r^(l-m) P_l^(m)(z/r) with P_l^(m) the m-th derivative of the Legendre
    polynomial:  2^-l sum_k (-1)^k binom(l,k) binom(2l-2k,l) (l-2k)!/(l-2k-m)!
    r^(2k) z^(l-2k-m) *)
Definition legendre_part (l m : nat) (x y z : R) : R :=
  sumR (map (fun k =>
    (-1) ^ k / 2 ^ l * Binomial.C l k * Binomial.C (2 * l - 2 * k) l
    * INR (fact (l - 2 * k)) / INR (fact (l - 2 * k - m))
    * (x ^ 2 + y ^ 2 + z ^ 2) ^ k * z ^ (l - 2 * k - m)) (seq 0 (S ((l - m) / 2)))).
(** r^l Y_lm, the real solid harmonic, orthonormal on the unit sphere, with
    the sign (-1)^m (Condon and Shortley): sin |m| phi for negative m and
    cos m phi for positive m *)
Definition solid (l : nat) (m : Z) (x y z : R) : R :=
  let a := Z.abs_nat m in
  (-1) ^ a * sqrt (INR (2 * l + 1) / (4 * PI) * INR (fact (l - a)) / INR (fact (l + a)))
  * legendre_part l a x y z
  * (if (m <? 0)%Z then sqrt 2 * snd (powc a x y)
     else if (m =? 0)%Z then 1 else sqrt 2 * fst (powc a x y)).

(** ** Integral over the unit sphere in the coordinates u = cos theta and
    phi; [sphere_integral f v] says that it exists and is v *)
Definition sphere_integral (f : R -> R -> R -> R) (v : R) : Prop :=
  exists g : R -> R,
    (forall p, is_RInt (fun u => f (sqrt (1 - u ^ 2) * cos p) (sqrt (1 - u ^ 2) * sin p) u) (-1) 1 (g p))
    /\ is_RInt g 0 (2 * PI) v.

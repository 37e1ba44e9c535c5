(** Property theorems C18. *)
From Coquelicot Require Import Coquelicot.
From Verif Require Import Base ModelUtils SpecTensor ModelSph SpecSph ProofSph ProofOrtho PropsTensor.
Open Scope R_scope.
Notation length := List.length.

(** C18: [c] holds the independent entries of a symmetric traceless tensor T
    of order l; the Taylor term is the combination of the real solid
    harmonics with m = -l, ..., l. *)
Theorem C18_taylor_term :
  forall l c T, (l <= 5)%nat -> length c = (2 * l + 1)%nat ->
  symmetric l T -> traceless l T ->
  (forall i s idx, nth_error (doc_names l) i = Some s -> spells s idx -> nth_error c i = Some (T idx)) ->
  exists d, cartesian_to_spherical_harmonics c = Ok d /\ length d = (2 * l + 1)%nat /\
  forall x y z, taylor l T x y z
    = sumR (map2 (fun s m => s * solid l m x y z) d (zrange (- Z.of_nat l) (Z.of_nat l + 1))).
Proof. exact taylor_term. Qed.
Print Assumptions C18_taylor_term.

(** the solid harmonics are orthonormal on the unit sphere *)
Theorem C18_orthonormal :
  forall l k m n, (l <= 5)%nat -> (k <= 5)%nat -> (Z.abs_nat m <= l)%nat -> (Z.abs_nat n <= k)%nat ->
  sphere_integral (fun x y z => solid l m x y z * solid k n x y z)
    (if ((l =? k)%nat && (m =? n)%Z)%bool then 1 else 0).
Proof. exact solid_ortho. Qed.
Print Assumptions C18_orthonormal.

(** so each coefficient is the overlap with its harmonic *)
Theorem C18_coefficient_is_overlap :
  forall l c T, (l <= 5)%nat -> length c = (2 * l + 1)%nat ->
  symmetric l T -> traceless l T ->
  (forall i s idx, nth_error (doc_names l) i = Some s -> spells s idx -> nth_error c i = Some (T idx)) ->
  exists d, cartesian_to_spherical_harmonics c = Ok d /\ length d = (2 * l + 1)%nat /\
  forall k, (k <= 2 * l)%nat ->
    sphere_integral (fun x y z => taylor l T x y z * solid l (Z.of_nat k - Z.of_nat l) x y z) (nth k d 0).
Proof. exact coefficient_integral. Qed.
Print Assumptions C18_coefficient_is_overlap.

(** other array lengths: a ValueError, but above order 5 the input comes back
    multiplied by a number *)
Theorem C18_other_lengths :
  forall c,
  (In (length c) [4; 6; 8; 10; 12]%nat -> cartesian_to_spherical_harmonics c = Raise ValueError) /\
  ((13 <= length c)%nat -> exists n, cartesian_to_spherical_harmonics c = Ok (map (Rmult n) c)).
Proof. intros c. destruct (other_lengths c) as [A B]. split; [exact A|]. intros H. eexists. exact (B H). Qed.
Print Assumptions C18_other_lengths.

(** the Hessian of x*x - z*z + 3*x*y meets the hypotheses *)
Example C18_hypotheses_met :
  length [2; 3; 0; 0; 0] = (2 * 2 + 1)%nat /\ symmetric 2 ex_T /\ traceless 2 ex_T /\
  (forall i s idx, nth_error (doc_names 2) i = Some s -> spells s idx -> nth_error [2; 3; 0; 0; 0] i = Some (ex_T idx)).
Proof.
  split; [reflexivity|]. split; [exact C13_example_symmetric|]. split; [exact C13_example_traceless|].
  intros i s idx Hi Hs.
  do 5 (destruct i as [|i]; [injection Hi as <-; repeat (inversion Hs as [|? ? Hs'|? ? Hs'|? ? Hs']; subst; clear Hs; rename Hs' into Hs);
    inversion Hs; subst; reflexivity|]).
  destruct i; discriminate.
Qed.
Example C18_taylor_example x y z : taylor 2 ex_T x y z = x * x - z * z + 3 * x * y.
Proof. unfold taylor. cbn. field. Qed.

(** Property theorems C05-C07, C09-C11, C20, C21. *)
From Coquelicot Require Import Coquelicot.
From Coq Require Import Permutation.
From Verif Require Import Base ModelExpr ModelUtils ModelField SpecTensor SpecField
  ProofTensor ProofField ProofPixel ProofDeriv ProofSys ProofPseudo.
Open Scope R_scope.
Notation length := List.length.

(** an example system: two pixels under a cover expansion, a triangle and a
    cover electrode *)
Definition ex_point := EPoint [((1, 2), 1 / 2); ((-1, 0), 3)] 1 5.
Definition ex_polygon := EPolygon [[(0, 0); (1, 0); (0, 1)]] 0 5.
Definition ex_sys : list electrode :=
  [Electrode "a" 2 0 ex_point; Electrode "b" 0 3 ex_point;
   Electrode "t" (-1) 1 ex_polygon; Electrode "c" 1 0 (ECover 5)].
Lemma ex_sys_wf : forall e, In e ex_sys -> well_formed (egeom e).
Proof.
  intros e H. cbn in H.
  destruct H as [<-|[<-|[<-|[<-|[]]]]]; cbn; auto. intros [H|[]]; discriminate.
Qed.

(** C05: superposition.  [eff] is what individual_potential returns, one
    array per electrode; the voltages are electrode attributes. *)
Theorem C05_superposition :
  forall s xs d t, (forall e, In e s -> well_formed (egeom e)) ->
  exists pot eff, electrical_potential s xs d t = Ok pot /\
    individual_potential s xs d = Ok eff /\
    shaped_rows d (length xs) pot /\ length eff = length s /\
    (forall m, (m < length s)%nat -> shaped_rows d (length xs) (nth m eff [])) /\
    forall j i, (j < length xs)%nat -> cell pot j i =
      sum_over (seq 0 (length s)) (fun m =>
        match nth_error s m with
        | Some e => match t with TDc => edc e | TRf => erf e | TNone => 0 end
        | None => 0 end * cell (nth m eff []) j i).
Proof. exact superposition. Qed.
Theorem C05_adding_electrodes :
  forall s1 s2 xs d t, (forall e, In e (s1 ++ s2) -> well_formed (egeom e)) ->
  exists p1 p2 p, electrical_potential s1 xs d t = Ok p1 /\
    electrical_potential s2 xs d t = Ok p2 /\ electrical_potential (s1 ++ s2) xs d t = Ok p /\
    forall j i, (j < length xs)%nat -> cell p j i = cell p1 j i + cell p2 j i.
Proof. exact append_systems. Qed.
Print Assumptions C05_superposition.
Print Assumptions C05_adding_electrodes.
Example C05_example : forall e, In e ex_sys -> well_formed (egeom e).
Proof. exact ex_sys_wf. Qed.

(** C06: [potential] adds voltage times the unit potential to every row and
    row [j] depends on point [j] only *)
Theorem C06_accumulates :
  forall g xs d v out, well_formed g -> shaped_rows d (length xs) out ->
  exists out', potential g xs d v (Some out) = Ok out' /\
    shaped_rows d (length xs) out' /\
    forall j i, (j < length xs)%nat ->
      cell out' j i = cell out j i + v * unit_term g d i (at_ xs j).
Proof. exact potential_spec. Qed.
Theorem C06_batch :
  forall g xs d v j, well_formed g -> (j < length xs)%nat ->
  exists out r, potential g xs d v None = Ok out /\
    potential g [at_ xs j] d v None = Ok [r] /\ nth j out [] = r.
Proof. exact potential_batch. Qed.
Print Assumptions C06_accumulates.
Print Assumptions C06_batch.
Example C06_example : well_formed ex_polygon /\
  shaped_rows 1 2 [[1; 2; 3]; [4; 5; 6]].
Proof.
  split; [cbn; intros [H|[]]; discriminate|]. split; [reflexivity|]. repeat constructor.
Qed.

(** C07 *)
Theorem C07_time_potential :
  forall s xs d t, (forall e, In e s -> well_formed (egeom e)) ->
  exists dc rf pot, electrical_potential s xs d TDc = Ok dc /\
    electrical_potential s xs d TRf = Ok rf /\
    time_potential s xs d t false = Ok pot /\
    forall j i, (j < length xs)%nat -> cell pot j i = cell dc j i + cos t * cell rf j i.
Proof. exact time_spec. Qed.
Theorem C07_time_potential_expanded :
  forall s xs d t, (forall e, In e s -> well_formed (egeom e)) -> (d <= 5)%nat ->
  exists pot, time_potential s xs d t true = Ok pot /\ length pot = length xs /\
    forall j idx, (j < length xs)%nat -> idx_of_order d idx ->
      nth (rowmajor idx) (nth j pot []) 0 =
      tensor_entry s TDc d idx (at_ xs j) + cos t * tensor_entry s TRf d idx (at_ xs j).
Proof. exact time_spec_expanded. Qed.
Theorem C07_periodic :
  forall s xs d t expand, time_potential s xs d (t + 2 * PI) expand = time_potential s xs d t expand.
Proof. exact time_periodic. Qed.
Theorem C07_start_and_average :
  forall s xs d t, (forall e, In e s -> well_formed (egeom e)) ->
  exists dc rf p0 p1 p2, electrical_potential s xs d TDc = Ok dc /\
    electrical_potential s xs d TRf = Ok rf /\ time_potential s xs d 0 false = Ok p0 /\
    time_potential s xs d t false = Ok p1 /\ time_potential s xs d (t + PI) false = Ok p2 /\
    forall j i, (j < length xs)%nat ->
      cell p0 j i = cell dc j i + cell rf j i /\
      (cell p1 j i + cell p2 j i) / 2 = cell dc j i.
Proof. exact time_average. Qed.
Print Assumptions C07_time_potential.
Print Assumptions C07_time_potential_expanded.
Print Assumptions C07_periodic.
Print Assumptions C07_start_and_average.

(** C09 *)
Theorem C09_nonnegative_and_zero :
  forall c s p, (forall e, In e s -> well_formed (egeom e)) ->
  0 <= pseudo_entry c s 0 [] p /\
  (pseudo_entry c s 0 [] p = 0 <->
     c = 0 \/ forall k, (k < 3)%nat -> tensor_entry s TRf 1 [k] p = 0).
Proof. exact pseudo_sign. Qed.
Theorem C09_quadratic_in_voltages :
  forall a c s p d idx, (forall e, In e s -> well_formed (egeom e)) -> (d <= 4)%nat ->
  pseudo_entry c (scale_rf a s) d idx p = a ^ 2 * pseudo_entry c s d idx p.
Proof. exact pseudo_scale_volts. Qed.
Theorem C09_quadratic_in_coefficient :
  forall a c s p d idx, (forall e, In e s -> well_formed (egeom e)) -> (d <= 4)%nat ->
  pseudo_entry (a * c) s d idx p = a ^ 2 * pseudo_entry c s d idx p.
Proof. exact pseudo_scale_coeff. Qed.
Theorem C09_symmetric :
  forall c s p d, (forall e, In e s -> well_formed (egeom e)) -> (d <= 4)%nat ->
  (exists T, pseudo_potential (Some c) s p d = Ok T) /\
  symmetric d (fun idx => pseudo_entry c s d idx p).
Proof. exact pseudo_symmetric_ok. Qed.
Print Assumptions C09_nonnegative_and_zero.
Print Assumptions C09_quadratic_in_voltages.
Print Assumptions C09_quadratic_in_coefficient.
Print Assumptions C09_symmetric.

(** C10 *)
Theorem C10_total :
  forall c s p d, (forall e, In e s -> well_formed (egeom e)) -> (d <= 4)%nat ->
  exists dc rf tot, total_potential (Some c) s p d "dc" = Ok dc /\
    total_potential (Some c) s p d "rf" = Ok rf /\
    total_potential (Some c) s p d "tot" = Ok tot /\
    (forall idx, tot idx = dc idx + rf idx) /\
    (forall idx, dc idx = tensor_entry s TDc d idx p) /\
    (forall idx, rf idx = pseudo_entry c s d idx p).
Proof. exact total_parts. Qed.
Theorem C10_bad_typ :
  forall c s p d typ, (forall e, In e s -> well_formed (egeom e)) -> (d <= 4)%nat ->
  typ <> "dc"%string -> typ <> "rf"%string -> typ <> "tot"%string ->
  total_potential (Some c) s p d typ = Raise ValueError.
Proof. exact total_bad_typ. Qed.
Theorem C10_no_rf_scale :
  forall s p d typ, (forall e, In e s -> well_formed (egeom e)) -> (d <= 5)%nat ->
  total_potential None s p d typ = Raise AttributeError.
Proof. exact total_no_coeff. Qed.
Print Assumptions C10_total.
Print Assumptions C10_bad_typ.
Print Assumptions C10_no_rf_scale.

(** C11.  Finding: order 5 and above of the pseudopotential is an
    IndexError from the tensor expansion, not the documented ValueError, and
    electrode potentials above order 5 are silently zero unless expanded. *)
Theorem C11_pseudo_high_is_index_error :
  forall c s p d, (forall e, In e s -> well_formed (egeom e)) -> (5 <= d)%nat ->
  pseudo_potential (Some c) s p d = Raise IndexError.
Proof. exact pseudo_high. Qed.
Theorem C11_refuted_documented_error :
  exists c s p d, (forall e, In e s -> well_formed (egeom e)) /\ (5 <= d)%nat /\
  pseudo_potential (Some c) s p d <> Raise ValueError.
Proof. exact no_value_error. Qed.
Theorem C11_expanded_high_is_index_error :
  forall s xs d t, (forall e, In e s -> well_formed (egeom e)) -> (6 <= d)%nat -> xs <> [] ->
  electrical_potential_expanded s xs d t = Raise IndexError.
Proof. exact electrical_high. Qed.
Theorem C11_refuted_unexpanded_high_is_zero :
  forall s xs d t, (forall e, In e s -> well_formed (egeom e)) ->
  (forall e, In e s -> match egeom e with EOther _ => False | _ => True end) -> (6 <= d)%nat ->
  electrical_potential s xs d t = Ok (zeros d (length xs)).
Proof. exact electrical_high_zero. Qed.
Theorem C11_supported_orders_return :
  forall s p d t, (forall e, In e s -> well_formed (egeom e)) -> (d <= 5)%nat ->
  returns_tensor s t d p.
Proof. exact returns_ok'. Qed.
Print Assumptions C11_pseudo_high_is_index_error.
Print Assumptions C11_refuted_documented_error.
Print Assumptions C11_expanded_high_is_index_error.
Print Assumptions C11_refuted_unexpanded_high_is_zero.
Print Assumptions C11_supported_orders_return.

(** C20: the potential of a pixel of area a at distance r and height z is
    a z / (2 pi r^3); each further entry is the partial derivative *)
Theorem C20_potential :
  forall pixels n h p,
  unit_term (EPoint pixels n h) 0 0 p =
  sum_over pixels (fun va => sum_over (images n) (fun k =>
    snd va * pz (image h k p) / (2 * PI * dist (image h k p) (fst va) ^ 3))).
Proof. exact point_potential_formula. Qed.
Theorem C20_point_derivatives :
  forall s t n p idx k,
  (forall e, In e s -> match egeom e with EPoint _ _ _ => off_electrode (egeom e) p | ECover _ => True | _ => False end) ->
  (n <= 4)%nat -> (k < 3)%nat -> idx_of_order n idx ->
  returns_tensor s t n p /\ returns_tensor s t (S n) p /\
  partial (tensor_entry s t n idx) k p (tensor_entry s t (S n) (k :: idx) p).
Proof. exact point_derivatives. Qed.
Print Assumptions C20_potential.
Print Assumptions C20_point_derivatives.
Example C20_example : off_electrode ex_point (P3 0 0 1) /\ idx_of_order 2 [0; 2]%nat.
Proof.
  split; [|split; [reflexivity|repeat (apply Forall_cons; [lia|]); apply Forall_nil]].
  intros v a k Hv Hk. apply sqrt_lt_R0. cbn in Hv.
  destruct Hv as [E|[E|[]]]; injection E as <- _; cbn [image px py pz fst snd]; nra.
Qed.

(** C21 *)
Theorem C21_harmonic :
  forall s t n p idx,
  (forall e, In e s -> match egeom e with EPoint _ _ _ => off_electrode (egeom e) p | ECover _ => True | _ => False end) ->
  (n <= 3)%nat -> idx_of_order n idx -> harmonic_at (tensor_entry s t n idx) p.
Proof. exact point_harmonic. Qed.
Print Assumptions C21_harmonic.

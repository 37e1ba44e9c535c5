(** C146 and C147: grid electrodes from files and from results. *)
From Verif Require Import Base ModelField ModelGrid SpecGrid ModelLoad SpecLoad ProofLoad.
Open Scope R_scope.
Notation length := List.length.

(** C146: every sample of the file is the value of the electrode at the point
    it belongs to; the potential first, the field, if present, second. *)
Theorem C146_stored :
  forall isfile read fil m f p fl,
  isfile fil = true -> ends_with ".vtk" fil = true -> f = read fil -> proper_file f ->
  proper_array f p "potential" 1 ->
  (used f = [p] \/ used f = [p; fl] /\ proper_array f fl "field" 3) -> (m <= 6)%nat ->
  exists g, from_vtk isfile read fil m = Ok g /\
    (forall d, (d < m)%nat -> exists a, has_order g d a) /\
    (forall i j k, in_file f i j k -> grid_value g 0 0 (vtk_point f i j k) = vtk_sample f p i j k 0) /\
    (used f = [p; fl] -> forall i j k c, in_file f i j k -> (c < 3)%nat ->
       grid_value g 1 c (vtk_point f i j k) = vtk_sample f fl i j k c).
Proof. exact vtk_stored. Qed.
Theorem C146_others_ignored :
  forall isfile read read' fil m,
  vdims (read fil) = vdims (read' fil) -> vorigin (read fil) = vorigin (read' fil) ->
  vspacing (read fil) = vspacing (read' fil) -> used (read fil) = used (read' fil) ->
  from_vtk isfile read fil m = from_vtk isfile read' fil m.
Proof. exact irrelevant_ignored. Qed.
Theorem C146_no_file :
  forall isfile read fil m, isfile fil = false \/ ends_with ".vtk" fil = false ->
  from_vtk isfile read fil m = Raise FileNotFoundError.
Proof. exact no_file. Qed.
(** an array whose size is not that of the grid *)
Theorem C146_wrong_size :
  forall f a m isfile read fil, isfile fil = true -> ends_with ".vtk" fil = true -> f = read fil ->
  hd_error (used f) = Some a -> (let '(nx, ny, nz) := vdims f in length (va_data a) <> nx * ny * nz * va_dim a)%nat ->
  from_vtk isfile read fil m = Raise ValueError.
Proof. exact load_size. Qed.
(** A file in which the field comes before the potential, or without
    potential, is not loaded; a file without both fails with an unrelated
    error. *)
Theorem C146_refuted_order :
  forall isfile read fil m f a, isfile fil = true -> ends_with ".vtk" fil = true -> f = read fil ->
  hd_error (used f) = Some a ->
  (forall b, In b (used f) -> let '(nx, ny, nz) := vdims f in length (va_data b) = nx * ny * nz * va_dim b)%nat ->
  va_dim a <> 1%nat -> (0 < m)%nat ->
  from_vtk isfile read fil m = Raise AssertionError.
Proof. exact first_not_scalar. Qed.
Theorem C146_refuted_empty :
  forall isfile read fil m, isfile fil = true -> ends_with ".vtk" fil = true -> used (read fil) = [] ->
  from_vtk isfile read fil m = Raise UnboundLocalError.
Proof. exact no_array. Qed.
Print Assumptions C146_stored.
Print Assumptions C146_others_ignored.
Print Assumptions C146_no_file.
Print Assumptions C146_wrong_size.
Print Assumptions C146_refuted_order.
Print Assumptions C146_refuted_empty.

(** a 2 x 3 x 2 file whose potential is 1 + i + 10 j + 100 k, with a pseudo
    potential and a field *)
Definition ex_pot : vtk_array :=
  VtkArray "potential" 1 [1; 2; 11; 12; 21; 22; 101; 102; 111; 112; 121; 122].
Definition ex_field : vtk_array := VtkArray "field" 3 (map INR (seq 0 36)).
Definition ex_pond : vtk_array := VtkArray "dc_pondpot" 1 [5].
Definition ex_file (l : list vtk_array) : vtk_file := VtkFile (2, 3, 2)%nat (P3 0 0 1) (P3 (1/2) 1 2) l.
Example ex_146 : exists g,
  from_vtk (fun _ => true) (fun _ => ex_file [ex_pond; ex_pot; ex_field]) "trap_dc1.vtk" 3 = Ok g /\
  grid_value g 0 0 (P3 (1/2) 2 3) = 122 /\ grid_value g 0 0 (P3 0 1 3) = 111 /\
  grid_value g 1 2 (P3 0 1 1) = 8.
Proof.
  set (f := ex_file [ex_pond; ex_pot; ex_field]).
  destruct (C146_stored (fun _ => true) (fun _ => f) "trap_dc1.vtk" 3 f ex_pot ex_field) as (g & E & _ & P & F).
  - reflexivity.
  - reflexivity.
  - reflexivity.
  - unfold proper_file, f, ex_file. cbn. repeat split; try lia; lra.
  - unfold proper_array, f, ex_file, ex_pot. cbn. auto.
  - right. split; [reflexivity|]. unfold proper_array, f, ex_file, ex_field. cbn. auto.
  - lia.
  - exists g. split; [exact E|].
    assert (P1 := P 1%nat 2%nat 1%nat). assert (P2 := P 0%nat 1%nat 1%nat). assert (F1 := F eq_refl 0%nat 1%nat 0%nat 2%nat).
    unfold in_file, f, ex_file, vtk_point, vtk_sample, ex_pot, ex_field in P1, P2, F1. cbn [vdims vorigin vspacing px py pz] in P1, P2, F1.
    specialize (P1 ltac:(lia)). specialize (P2 ltac:(lia)). specialize (F1 ltac:(lia) ltac:(lia)).
    cbn in P1, P2, F1. repeat split.
    + rewrite <- P1. f_equal. f_equal; lra.
    + rewrite <- P2. f_equal. f_equal; lra.
    + replace 8 with (1 + 1 + 1 + 1 + 1 + 1 + 1 + 1) by lra. rewrite <- F1. f_equal. f_equal; lra.
Qed.
Example ex_146_order :
  from_vtk (fun _ => true) (fun _ => ex_file [ex_field; ex_pot]) "trap_dc1.vtk" 4 = Raise AssertionError.
Proof.
  apply (C146_refuted_order _ _ _ _ (ex_file [ex_field; ex_pot]) ex_field); try reflexivity; try lia.
  - cbn. intros b [<-|[<-|[]]]; reflexivity.
  - cbn. lia.
Qed.
Example ex_146_errors :
  from_vtk (fun _ => true) (fun _ => ex_file [ex_pond]) "a.vtk" 4 = Raise UnboundLocalError /\
  from_vtk (fun _ => true) (fun _ => ex_file [ex_pot]) "a.vti" 4 = Raise FileNotFoundError.
Proof. split; reflexivity. Qed.

(** the two tests on names: the ending of the file's name, and the arrays that are left out *)
Theorem C146_names :
  (forall suffix s, ends_with suffix s = true <-> exists p, s = (p ++ suffix)%string) /\
  (forall sub s, contains sub s = true <-> exists a b, s = (a ++ sub ++ b)%string).
Proof. exact (conj ends_with_iff contains_iff). Qed.
Print Assumptions C146_names.
Example ex_146_names : ends_with ".vtk" "trap.vtk" = true /\ ends_with ".vtk" "trap.vti" = false /\
  contains "_pondpot" "rf_pondpot_1" = true /\ contains "_pondpot" "potential" = false.
Proof. repeat split. Qed.

(** C147: the value of the electrode at a grid point is the sample of the
    result there, component c of the gradient entry c of its field. *)
Theorem C147_stored :
  forall r m, proper_result r -> (m <= 6)%nat ->
  exists g, from_result r m = Ok g /\
    (forall d, (d < m)%nat -> exists a, has_order g d a) /\
    (forall i j k, in_result r i j k -> grid_value g 0 0 (result_point r i j k) = snd (rpotential r) i j k) /\
    (forall f i j k c, rfield r = Some f -> in_result r i j k -> (c < 3)%nat ->
       grid_value g 1 c (result_point r i j k) = val f c i j k).
Proof. exact result_stored. Qed.
Print Assumptions C147_stored.
Definition ex_result : result :=
  Result (Axis 0 1 3) (Axis 0 1 2) (Axis 5 2 2) ((3, 2, 2)%nat, fun i j k => INR i + 10 * INR j + 100 * INR k)
    (Some (Arr 3 3 2 2 (fun c i j k => INR c))).
Example ex_147 : exists g, from_result ex_result 3 = Ok g /\
  grid_value g 0 0 (P3 1 (1/2) 4) = 12 /\ grid_value g 1 2 (P3 1 (1/2) 4) = 2.
Proof.
  destruct (C147_stored ex_result 3) as (g & E & _ & P & F).
  - unfold proper_result, ex_result. cbn. repeat split; try lia; lra.
  - lia.
  - exists g. split; [exact E|].
    assert (P1 := P 2%nat 1%nat 0%nat). assert (F1 := F _ 2%nat 1%nat 0%nat 2%nat eq_refl).
    unfold in_result, ex_result, result_point, indices_to_coordinates in P1, F1. cbn in P1, F1.
    specialize (P1 ltac:(lia)). specialize (F1 ltac:(lia) ltac:(lia)). split.
    + replace 12 with (1 + 1 + 10 * 1 + 100 * 0) by lra. rewrite <- P1. f_equal. f_equal; lra.
    + transitivity (1 + 1); [|lra]. rewrite <- F1. f_equal. f_equal; lra.
Qed.

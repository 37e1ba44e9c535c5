(** The exported functions, and cases for the examples. *)
From Verif Require Import Base SpecTensor ModelTrans ModelRegister SpecTrans SpecDecomp ModelCExt SpecCExt SpecCInv.
From Verif Require Import ProofTrans ProofQuat ProofCQuat.
From Verif Require Import ModelCEig SpecCEig ProofCEig ProofCEig2 ProofCEig3 ProofCEig4 ProofCEig5 ProofCEig6.
Open Scope R_scope.
Notation length := List.length.

Lemma py_tridiagonalize_ok m : symmetric4 m -> exists a b q e, c_py_tridiagonalize (Mat 4 4 m) = Ret (a, b) /\ orthogonal4 q /\
  (forall i j, (i < 4)%nat -> (j < 4)%nat -> Rabs (e i j) <= / 2 ^ 50) /\
  (forall i j, (i < 4)%nat -> (j < 4)%nat -> (i <= S j)%nat -> (j <= S i)%nat -> e i j = 0) /\
  same4 m (conjugate q (fun i j => tridiagonal a b i j + e i j)).
Proof.
  intros S. destruct (tridiagonalize_ok m S) as [q [e [O [_ [B [Z E]]]]]]. exists (fst (c_tridiagonalize m)), (snd (c_tridiagonalize m)), q, e.
  split; [unfold c_py_tridiagonalize; cbn [conv44 Nat.eqb andb obind]; rewrite <- surjective_pairing; reflexivity|].
  split; [exact O|]. split; [exact B|]. split; [exact Z|]. exact E.
Qed.
Lemma py_max_shape fuel d s r : (4 <= length d)%nat -> (3 <= length s)%nat ->
  c_py_max_eigenvalue fuel (Vec d) (Vec s) = Some r -> exists l, r = Ret l /\ c_max_eigenvalue fuel (of_list d) (of_list s) = Some l.
Proof.
  intros Hd Hs. unfold c_py_max_eigenvalue, conv4, conv3. destruct (Nat.leb_spec 4 (length d)); [|lia]. destruct (Nat.leb_spec 3 (length s)); [|lia].
  destruct (c_max_eigenvalue fuel _ _) as [l|]; [|discriminate]. intros K. injection K as <-. exists l. split; reflexivity.
Qed.
Lemma py_max_ends d s : (4 <= length d)%nat -> (3 <= length s)%nat -> exists n l, forall fuel, (n <= fuel)%nat ->
  c_py_max_eigenvalue fuel (Vec d) (Vec s) = Some (Ret l).
Proof.
  intros Hd Hs. destruct (max_ends (of_list d) (of_list s)) as [n [l H]]. exists n, l. intros fuel Hf.
  unfold c_py_max_eigenvalue, conv4, conv3. destruct (Nat.leb_spec 4 (length d)); [|lia]. destruct (Nat.leb_spec 3 (length s)); [|lia].
  rewrite (H fuel Hf). reflexivity.
Qed.
Lemma py_max_not_above fuel d s l : (4 <= length d)%nat -> (3 <= length s)%nat -> c_py_max_eigenvalue fuel (Vec d) (Vec s) = Some (Ret l) ->
  exists x, 0 < len2 x /\ (l - 3 * / 10 ^ 18) * len2 x <= quadratic (tridiagonal (of_list d) (of_list s)) x.
Proof. intros Hd Hs H. destruct (py_max_shape fuel d s _ Hd Hs H) as [l' [K E]]. injection K as <-. exact (max_not_above _ _ _ _ E). Qed.
Lemma py_max_found fuel d s l x : (4 <= length d)%nat -> (3 <= length s)%nat -> clear_search (/ 10 ^ 18) (of_list d) (of_list s) ->
  largest (tridiagonal (of_list d) (of_list s)) x -> c_py_max_eigenvalue fuel (Vec d) (Vec s) = Some (Ret l) -> Rabs (l - x) <= / 10 ^ 18 / 2.
Proof. intros Hd Hs C L H. destruct (py_max_shape fuel d s _ Hd Hs H) as [l' [K E]]. injection K as <-. exact (max_found' _ _ _ _ _ L C E). Qed.
Lemma py_max_missed : exists d s, length d = 4%nat /\ length s = 3%nat /\
  (exists x, 0 < len2 x /\ 9 / 10 * len2 x <= quadratic (tridiagonal (of_list d) (of_list s)) x) /\
  forall fuel l, c_py_max_eigenvalue fuel (Vec d) (Vec s) = Some (Ret l) -> l <= 0.
Proof.
  exists [- (1 / 2000000000000000000); 0; - (1 / 2); - (1 / 2)], [1; 0; 0]. split; [reflexivity|]. split; [reflexivity|]. split.
  - destruct missed_reaches as [x [P H]]. exists x. split; [exact P|]. rewrite quadratic_tri in *. exact H.
  - intros fuel l H. destruct (py_max_shape fuel [- (1 / 2000000000000000000); 0; - (1 / 2); - (1 / 2)] [1; 0; 0] _ (le_n 4) (le_n 3) H) as [l' [K E]]. injection K as <-.
    apply (missed fuel). rewrite <- E. unfold c_max_eigenvalue.
    assert (G : forall f L U, bisection f missed_a missed_b L U = bisection f (of_list [- (1 / 2000000000000000000); 0; - (1 / 2); - (1 / 2)]) (of_list [1; 0; 0]) L U).
    { induction f as [|f IH]; intros L U; [reflexivity|]. cbn [bisection]. rewrite !IH. reflexivity. }
    apply G.
Qed.
Lemma py_eigenvector_ok m l v : symmetric4 m -> c_py_eigenvector (Mat 4 4 m) l = Ret v ->
  let x := vec4 (v 3%nat) (v 0%nat) (v 1%nat) (v 2%nat) in len2 x = 1 /\
  exists k r, (k < 4)%nat /\ Rabs r <= 2 ^ 25 * Rabs (det 4 (fun i j => if (i =? j)%nat then m i j - l else m i j)) /\
    forall i, (i < 4)%nat -> vsum 4 (fun j => m i j * x j) = l * x i + if (i =? k)%nat then r else 0.
Proof.
  intros S H. unfold c_py_eigenvector in H. cbn [conv44 Nat.eqb andb obind] in H.
  destruct (c_eigenvector (less_diagonal m l)) as [w|] eqn:E; [|discriminate H]. injection H as <-. cbv zeta.
  destruct (eigenvector_ok _ w (less_symmetric m l S) E) as [U [k [r [Hk [Rr Er]]]]]. split; [exact U|].
  exists k, r. split; [exact Hk|]. split; [exact Rr|]. intros i Hi. specialize (Er i Hi). rewrite less_row in Er by exact Hi.
  unfold row, turned in Er. lra.
Qed.
Lemma diag_symmetric a b c d : symmetric4 (diag a b c d).
Proof. intros i j Hi Hj. unfold diag, sym, arr16, rows4, vec4. each4; reflexivity. Qed.
Lemma diag_cramer0 a b c d l : sumsq4 (cramer (less_diagonal (diag a b c d) l) 0) = (b - l) * (c - l) * (d - l) * ((b - l) * (c - l) * (d - l)).
Proof. unfold sumsq4, cramer, at16, less_diagonal, diag, sym, arr16, rows4, vec4. cbn [Nat.eqb Nat.div Nat.modulo Nat.divmod fst snd Nat.sub]. ring. Qed.
Lemma diag_least a b c d l : least_square (less_diagonal (diag a b c d) l) =
  let e := (a - l) * (b - l) * (c - l) * (d - l) * / 10 ^ 6 in if Rlt_dec (e * e) eps then eps else e * e.
Proof.
  unfold least_square, at16, less_diagonal, diag, sym, arr16, rows4, vec4. cbn [Nat.eqb Nat.div Nat.modulo Nat.divmod fst snd Nat.sub]. cbv zeta.
  replace ((a - l) * (b - l) * (c - l) * (d - l) - 0 * 0 * 0 * 0) with ((a - l) * (b - l) * (c - l) * (d - l)) by ring. reflexivity.
Qed.
Lemma diag_accepted : exists v, c_py_eigenvector (Mat 4 4 (diag 0 (- (1)) (- (1)) (- (1)))) 0 = Ret v.
Proof.
  unfold c_py_eigenvector. cbn [conv44 Nat.eqb andb obind]. destruct (c_eigenvector _) as [v|] eqn:E; [exists v; reflexivity|exfalso].
    rewrite eigenvector_refused in E. specialize (E 0%nat ltac:(lia)). rewrite diag_cramer0, diag_least in E. cbv zeta in E.
    replace ((0 - 0) * (- (1) - 0) * (- (1) - 0) * (- (1) - 0) * / 10 ^ 6) with 0 in E by ring.
    pose proof eps_value. destruct (Rlt_dec (0 * 0) eps); lra.
Qed.
Lemma py_eigenvector_order : exists m, symmetric4 m /\ (exists v, c_py_eigenvector (Mat 4 4 m) 0 = Ret v) /\
  forall v, c_py_eigenvector (Mat 4 4 m) 0 = Ret v -> exists i, (i < 4)%nat /\ vsum 4 (fun j => m i j * v j) <> 0 * v i.
Proof.
  exists (diag 0 (- (1)) (- (1)) (- (1))). split; [apply diag_symmetric|]. split.
  - exact diag_accepted.
  - intros v H. destruct (py_eigenvector_ok _ 0 v (diag_symmetric _ _ _ _) H) as [U [k [r [Hk [Rr Er]]]]].
    exists 3%nat. split; [lia|]. 
    replace (vsum 4 (fun j => diag 0 (- (1)) (- (1)) (- (1)) 3 j * v j)) with (- v 3%nat) by (unfold diag, sym, arr16, rows4, vec4; cbn [vsum]; ring).
    assert (D : det 4 (fun i j => if (i =? j)%nat then diag 0 (- (1)) (- (1)) (- (1)) i j - 0 else diag 0 (- (1)) (- (1)) (- (1)) i j) = 0).
    { rewrite ProofCInv3.det4. unfold ProofCInv3.d3, diag, sym, arr16, rows4, vec4. cbn [Nat.eqb]. ring. }
    rewrite D, Rabs_R0, Rmult_0_r in Rr. assert (Rz : r = 0) by (apply abs_between in Rr; lra). subst r.
    pose proof (Er 1%nat ltac:(lia)) as E1. pose proof (Er 2%nat ltac:(lia)) as E2. pose proof (Er 3%nat ltac:(lia)) as E3.
    assert (Z : forall (b : bool), (if b then 0 else 0) = 0) by (intros []; reflexivity). rewrite Z in E1, E2, E3. clear Er.
    unfold diag, sym, arr16, rows4, vec4 in E1, E2, E3. cbn [vsum] in E1, E2, E3.
    rewrite len2_four in U. unfold vec4 in U. 
    assert (V0 : v 0%nat = 0) by lra. assert (V1 : v 1%nat = 0) by lra. assert (V2 : v 2%nat = 0) by lra. rewrite V0, V1, V2 in U.
    intros K. assert (V3 : v 3%nat = 0) by lra. rewrite V3 in U. lra.
Qed.
Lemma py_eigenvector_small : forall t, 0 < t <= 1 / 400 -> let m := diag 0 (- t) (- t) (- t) in
  symmetric4 m /\ det 4 m = 0 /\ c_py_eigenvector (Mat 4 4 m) 0 = Exc ValueError.
Proof.
  intros t Ht. cbv zeta. split; [apply diag_symmetric|]. split.
  { rewrite ProofCInv3.det4. unfold ProofCInv3.d3, diag, sym, arr16, rows4, vec4. ring. }
  unfold c_py_eigenvector. cbn [conv44 Nat.eqb andb obind].
  assert (E : c_eigenvector (less_diagonal (diag 0 (- t) (- t) (- t)) 0) = None); [|rewrite E; reflexivity].
  apply eigenvector_refused. intros k Hk. eapply Rlt_le_trans; [|apply least_eps]. pose proof eps_value as Ee.
  assert (S : 0 - t * t * t * (- t * - t * - t) < eps /\ t * t * t * (t * t * t) < eps).
  { split; [|apply (product_small _ _ _ (1/400) (1/400) (1/400)); try (rewrite Rabs_right; lra); rewrite Ee; lra].
    replace (0 - t * t * t * (- t * - t * - t)) with (t * t * t * (t * t * t)) by ring.
    apply (product_small _ _ _ (1/400) (1/400) (1/400)); try (rewrite Rabs_right; lra); rewrite Ee; lra. }
  unfold sumsq4, cramer, at16, less_diagonal, diag, sym, arr16, rows4, vec4.
  each4; cbn [Nat.eqb Nat.div Nat.modulo Nat.divmod fst snd Nat.sub].
  - match goal with |- ?u < _ => replace u with (t * t * t * (t * t * t)) by ring end. apply S.
  - match goal with |- ?u < _ => replace u with 0 by ring end. rewrite Ee; lra.
  - match goal with |- ?u < _ => replace u with 0 by ring end. rewrite Ee; lra.
  - match goal with |- ?u < _ => replace u with 0 by ring end. rewrite Ee; lra.
Qed.
(** ** cases *)
Definition half_turn : mat4 := quaternion_matrix (vec4 0 1 0 0).
Lemma half_unit : unit_quat (vec4 0 1 0 0).
Proof. unfold unit_quat, inner, vec4. cbn [vsum]. ring. Qed.
Lemma half_turn_k i j : (i < 4)%nat -> (j < 4)%nat -> c_kmatrix half_turn i j = diag 1 (- (1 / 3)) (- (1 / 3)) (- (1 / 3)) i j.
Proof.
  intros Hi Hj. pose proof (ProofEuler.unit_matrix _ half_unit) as E. fold half_turn in E.
  unfold c_kmatrix, at16. cbn [Nat.div Nat.modulo Nat.divmod fst snd Nat.sub]. rewrite !E by lia.
  unfold qm, diag, sym, arr16, rows4, vec4. each4; field.
Qed.
Lemma half_turn_clear : proper_rotation half_turn /\ let ab := c_tridiagonalize (c_kmatrix half_turn) in clear_search precision (fst ab) (snd ab).
Proof.
  split; [apply qmatrix_rotation|]. cbv zeta. rewrite (tridiagonalize_ext _ _ half_turn_k), tridiagonalize_diag. cbn [fst snd]. apply diag_clear; lra.
Qed.
Lemma octahedron_found : exists fuel M, c_superimposition fuel 3 (octahedron 1) (octahedron 1) false = Some (Ret M) /\
  let ab := c_tridiagonalize (c_horn (octahedron 1) (octahedron 1) (centroid (octahedron 1)) (centroid (octahedron 1))) in clear_search precision (fst ab) (snd ab).
Proof.
  set (v := octahedron 1).
  assert (T : forall i j, (i < 4)%nat -> (j < 4)%nat -> c_horn v v (centroid v) (centroid v) i j = diag (6 * (1 * 1)) (- (2) * (1 * 1)) (- (2) * (1 * 1)) (- (2) * (1 * 1)) i j) by (apply octahedron_profile).
  destruct (super_ends v v 3 false) as [n [o H]]. specialize (H n ltac:(lia)). exists n.
  destruct (super_shape v v eq_refl ltac:(cbn; lia) n 3 false o H ltac:(lia)) as [l [Hl E]]. rewrite (tridiagonalize_ext _ _ T), tridiagonalize_diag in *. cbn [fst snd] in *.
  pose proof (diag_found (6 * (1 * 1)) (- (2) * (1 * 1)) (- (2) * (1 * 1)) (- (2) * (1 * 1)) ltac:(lra) ltac:(lra) ltac:(lra) n l Hl) as F.
  destruct (c_eigenvector _) as [q|] eqn:Eq.
  - destruct E as [M [-> _]]. exists M. split; [exact H|]. apply diag_clear; lra.
  - exfalso. rewrite eigenvector_refused in Eq. specialize (Eq 0%nat ltac:(lia)).
    assert (X : forall i j, (i < 4)%nat -> (j < 4)%nat -> less_diagonal (c_horn v v (centroid v) (centroid v)) l i j = less_diagonal (diag (6 * (1 * 1)) (- (2) * (1 * 1)) (- (2) * (1 * 1)) (- (2) * (1 * 1))) l i j) by (intros i j Hi Hj; unfold less_diagonal; rewrite (T i j Hi Hj); reflexivity).
    rewrite (cramer_ext _ _ 0 X), (least_ext _ _ X), diag_cramer0, diag_least in Eq by lia. cbv zeta in Eq.
    pose proof precision_value as Ep. pose proof eps_value as Ee. rewrite Ep in F. apply abs_between in F.
    set (y := - (2) * (1 * 1) - l) in *. assert (By : - (9) <= y <= - (7)) by (unfold y; lra).
    set (d := 6 * (1 * 1) - l) in *. assert (Bd : Rabs d <= 1) by (apply Rabs_le; unfold d; lra).
    assert (Y3 : 343 <= Rabs (y * y * y)).
    { assert (Ay : 7 <= Rabs y) by (rewrite Rabs_left; lra). rewrite !Rabs_mult.
      pose proof (Rmult_le_compat 7 (Rabs y) 7 (Rabs y) ltac:(lra) ltac:(lra) Ay Ay) as A2.
      pose proof (Rmult_le_compat 49 (Rabs y * Rabs y) 7 (Rabs y) ltac:(lra) ltac:(lra) ltac:(lra) Ay). lra. }
    assert (Y6 : 1 <= y * y * y * (y * y * y)).
    { replace (y * y * y * (y * y * y)) with (Rabs (y * y * y) * Rabs (y * y * y)) by (rewrite <- Rabs_mult; apply Rabs_right, Rle_ge, Rle_0_sqr).
      pose proof (Rmult_le_compat 1 (Rabs (y * y * y)) 1 (Rabs (y * y * y)) ltac:(lra) ltac:(lra) ltac:(lra) ltac:(lra)). lra. }
    assert (W : (d * y * y * y * / 10 ^ 6) * (d * y * y * y * / 10 ^ 6) <= 1).
    { assert (B : Rabs (d * y * y * y * / 10 ^ 6) <= 1 * 9 * 9 * 9 * / 10 ^ 6).
      { assert (A9 : Rabs y <= 9) by (apply Rabs_le; lra). repeat apply abs_prod; try assumption. rewrite Rabs_right; [lra|]. apply Rle_ge, Rlt_le, Rinv_0_lt_compat, pow_lt; lra. }
      assert (B1 : Rabs (d * y * y * y * / 10 ^ 6) <= 1).
      { eapply Rle_trans; [exact B|]. replace (10 ^ 6) with 1000000 by ring. lra. }
      pose proof (abs_square _ _ B1). lra. }
    destruct (Rlt_dec _ eps); lra.
Qed.
(** ** in the form of the theorems *)
Lemma numbers_list n a : numbers n a -> exists l, a = Vec l /\ (n <= length l)%nat /\ entries a = of_list l.
Proof. intros [l [-> H]]. exists l. split; [reflexivity|]. split; [exact H|reflexivity]. Qed.
Lemma max_ends' d s : numbers 4 d -> numbers 3 s -> exists n l, forall fuel, (n <= fuel)%nat -> c_py_max_eigenvalue fuel d s = Some (Ret l).
Proof. intros D S. destruct (numbers_list _ _ D) as [x [-> [Hx _]]]. destruct (numbers_list _ _ S) as [y [-> [Hy _]]]. apply py_max_ends; assumption. Qed.
Lemma max_not_above' fuel d s l : numbers 4 d -> numbers 3 s -> c_py_max_eigenvalue fuel d s = Some (Ret l) ->
  exists x, 0 < len2 x /\ (l - 3 * / 10 ^ 18) * len2 x <= quadratic (tridiagonal (entries d) (entries s)) x.
Proof. intros D S. destruct (numbers_list _ _ D) as [x [-> [Hx ->]]]. destruct (numbers_list _ _ S) as [y [-> [Hy ->]]]. apply py_max_not_above; assumption. Qed.
Lemma max_found'' fuel d s l x : numbers 4 d -> numbers 3 s -> clear_search (/ 10 ^ 18) (entries d) (entries s) ->
  largest (tridiagonal (entries d) (entries s)) x -> c_py_max_eigenvalue fuel d s = Some (Ret l) -> Rabs (l - x) <= / 10 ^ 18 / 2.
Proof. intros D S. destruct (numbers_list _ _ D) as [u [-> [Hx ->]]]. destruct (numbers_list _ _ S) as [y [-> [Hy ->]]]. apply py_max_found; assumption. Qed.
Lemma max_missed' : exists d s, numbers 4 d /\ numbers 3 s /\
  (exists x, 0 < len2 x /\ 9 / 10 * len2 x <= quadratic (tridiagonal (entries d) (entries s)) x) /\
  forall fuel l, c_py_max_eigenvalue fuel d s = Some (Ret l) -> l <= 0.
Proof.
  destruct py_max_missed as [d [s [Hd [Hs [H1 H2]]]]]. exists (Vec d), (Vec s). split; [exists d; split; [reflexivity|lia]|]. split; [exists s; split; [reflexivity|lia]|].
  split; [exact H1|exact H2].
Qed.
Lemma py_matrix_found fuel m a b l x : symmetric4 m -> c_py_tridiagonalize (Mat 4 4 m) = Ret (a, b) -> clear_search (/ 10 ^ 18) a b -> largest m x ->
  c_max_eigenvalue fuel a b = Some l -> Rabs (l - x) <= 5 * / 2 ^ 50.
Proof.
  intros S T C L H. unfold c_py_tridiagonalize in T. cbn [conv44 Nat.eqb andb obind] in T.
  assert (E : c_tridiagonalize m = (a, b)) by congruence. apply (matrix_found m S fuel l x); rewrite ?E; assumption.
Qed.
Lemma clear_list : clear_search (/ 10 ^ 18) (entries (Vec [0; 0; 0; 0])) (entries (Vec [1; 0; 0])).
Proof.
  pose proof clear_example as C. intros l L n k Hk e He.
  assert (D : disc_lower (entries (Vec [0; 0; 0; 0])) (entries (Vec [1; 0; 0])) = disc_lower (vec4 0 0 0 0) (vec3 1 0 0)) by reflexivity.
  assert (U : disc_upper (entries (Vec [0; 0; 0; 0])) (entries (Vec [1; 0; 0])) = disc_upper (vec4 0 0 0 0) (vec3 1 0 0)) by reflexivity.
  unfold e in *. clear e. rewrite D, U in *. refine (C l _ n k Hk He).
  destruct L as [L1 L2]. split.
  - intros x. specialize (L1 x). rewrite quadratic_tri in *. exact L1.
  - intros e He'. destruct (L2 e He') as [x [Px Hx]]. exists x. split; [exact Px|]. rewrite quadratic_tri in *. exact Hx.
Qed.
Lemma eigenvector_case : exists m v, symmetric4 m /\ c_py_eigenvector (Mat 4 4 m) 0 = Ret v /\ m 1%nat 1%nat <> 0.
Proof.
  destruct (diag_accepted : exists v, c_py_eigenvector (Mat 4 4 (diag 0 (- (1)) (- (1)) (- (1)))) 0 = Ret v) as [v H].
  exists (diag 0 (- (1)) (- (1)) (- (1))), v. split; [apply diag_symmetric|]. split; [exact H|]. unfold diag, sym, arr16, rows4, vec4. lra.
Qed.

(** Reduced derivative tensors of closed sets of edges. *)
From Coquelicot Require Import Coquelicot.
From Coq Require Import Permutation Sorting.Sorted.
From Verif Require Import Base ModelExpr ModelUtils ModelField SpecTensor SpecField
  ProofTensor ProofField ProofPixel ProofDeriv ProofSys ProofEdgeG ProofEdgeP ProofEdgeT ProofEdgeT5 ProofEdgeS.
Open Scope R_scope.
Notation length := List.length.

(** weighted oriented edges; closed: everything that depends on one vertex cancels *)
Notation wedges := (list (R * (p2 * p2))).
Definition v1of (e : R * (p2 * p2)) : p2 := fst (snd e).
Definition v2of (e : R * (p2 * p2)) : p2 := snd (snd e).
Definition closed (es : wedges) : Prop :=
  forall U : p2 -> R, sum_over es (fun e => fst e * (U (v1of e) - U (v2of e))) = 0.
Definition efam (es : wedges) : fam := fun n i q =>
  sum_over es (fun e => fst e * edge_term n (v1of e) (v2of e) i q).
Definition SE (es : wedges) (k : nat) (idx : list nat) (q : p3) : R :=
  sum_over es (fun e => fst e * (cf (v1of e) (v2of e) k * E (v1of e) (v2of e) idx q)).
Definition TE (es : wedges) (idx : list nat) (q : p3) : R :=
  SE es (hd 0%nat (sorted idx)) (tl (sorted idx)) q.

Lemma SE_perm es k i j q : Permutation i j -> SE es k i q = SE es k j q.
Proof. intros H. apply sum_ext. intros e _. now rewrite (E_perm _ _ i j q H). Qed.
Lemma TE_perm es i j q : Permutation i j -> TE es i q = TE es j q.
Proof. intros H. unfold TE. now rewrite (sorted_eq i j H). Qed.
Lemma SE_derive es k0 n idx k p : (n <= 3)%nat -> idx_of_order n idx -> (k < 3)%nat -> pz p <> 0 ->
  partial (SE es k0 idx) k p (SE es k0 (k :: idx) p).
Proof.
  intros Hn Hi Hk Hz.
  apply (partial_sum es (fun e q => fst e * (cf (v1of e) (v2of e) k0 * E (v1of e) (v2of e) idx q))).
  intros e _. apply partial_scal. apply partial_scal. now apply (E_derive _ _ n).
Qed.
Lemma SE_sym es n r p : closed es -> (n <= 3)%nat -> idx_of_order n r -> pz p <> 0 ->
  SE es 0 (1 :: r)%nat p = SE es 1 (0 :: r)%nat p.
Proof.
  intros HC Hn Hi Hz. specialize (HC (fun v => X v n r p)). pose proof PI_RGT_0.
  enough (SE es 1 (0 :: r)%nat p + - 1 * SE es 0 (1 :: r)%nat p = 0) by lra.
  unfold SE. rewrite <- sum_scal, <- sum_plus. rewrite <- HC. apply sum_ext. intros e _.
  pose proof (E_sym (v1of e) (v2of e) n r p Hn Hi Hz) as Q.
  apply (Rmult_eq_reg_l PI); [|lra].
  replace (PI * (fst e * (X (v1of e) n r p - X (v2of e) n r p))) with
    (fst e * (PI * (X (v1of e) n r p - X (v2of e) n r p))) by ring.
  rewrite <- Q. unfold cf. field. lra.
Qed.
Lemma SE_laplace es k n r p : (n <= 2)%nat -> idx_of_order n r -> pz p <> 0 ->
  SE es k (0 :: 0 :: r)%nat p + SE es k (1 :: 1 :: r)%nat p + SE es k (2 :: 2 :: r)%nat p = 0.
Proof.
  intros Hn Hi Hz. unfold SE. rewrite <- !sum_plus. apply sum_zero. intros e _.
  pose proof (E_laplace (v1of e) (v2of e) n r p Hn Hi Hz) as Q.
  transitivity (fst e * cf (v1of e) (v2of e) k * (E (v1of e) (v2of e) (0 :: 0 :: r)%nat p +
    E (v1of e) (v2of e) (1 :: 1 :: r)%nat p + E (v1of e) (v2of e) (2 :: 2 :: r)%nat p)); [ring|].
  rewrite Q. ring.
Qed.

Lemma idx_perm n i j : Permutation i j -> idx_of_order n i -> idx_of_order n j.
Proof.
  intros HP [H1 H2]. split; [now rewrite <- (Permutation_length HP)|].
  eapply Permutation_Forall; eauto.
Qed.
Lemma idx_tl n k r : idx_of_order (S n) (k :: r) -> (k < 3)%nat /\ idx_of_order n r.
Proof. intros [H1 H2]. inversion H2; subst. cbn in H1. split; [assumption|split; [lia|assumption]]. Qed.
Lemma TE_cons es n k r p : closed es -> (n <= 4)%nat -> (k < 2)%nat -> idx_of_order n r -> pz p <> 0 ->
  TE es (k :: r) p = SE es k r p.
Proof.
  intros HC Hn Hk Hi Hz. unfold TE.
  pose proof (sorted_perm (k :: r)) as HP. pose proof (sorted_sorted (k :: r)) as HS.
  destruct (sorted (k :: r)) as [|h t]; [apply Permutation_sym, Permutation_nil in HP; discriminate|].
  cbn [hd tl]. destruct (Nat.eq_dec h k) as [->|Hne].
  - apply Permutation_cons_inv in HP. now apply SE_perm, Permutation_sym.
  - assert (In k t). { assert (In k (h :: t)) by (eapply Permutation_in; [exact HP|now left]).
      destruct H; [congruence|assumption]. }
    inversion HS as [|? ? _ HF]; subst. rewrite Forall_forall in HF. specialize (HF k H).
    assert (h = 0%nat /\ k = 1%nat) as [-> ->] by lia.
    destruct (in_split _ _ H) as (t1 & t2 & ->).
    assert (P1 : Permutation (t1 ++ 1%nat :: t2) (1%nat :: t1 ++ t2))
      by (apply Permutation_sym, Permutation_middle).
    assert (P2 : Permutation r (0%nat :: t1 ++ t2)).
    { apply (Permutation_cons_inv (a := 1%nat)). rewrite HP. rewrite P1. constructor. }
    pose proof (idx_perm _ _ _ P2 Hi) as Hi2. destruct n as [|n]; [destruct Hi2; discriminate|].
    apply idx_tl in Hi2. destruct Hi2 as [_ Hi2].
    rewrite (SE_perm es 0 _ _ p P1), (SE_perm es 1 _ _ p P2). apply (SE_sym es n); auto; try lia.
Qed.

(** value of a reduced entry *)
Lemma efam_text es n i p : (1 <= n <= 5)%nat -> (i < 2 * n + 1)%nat -> ~ (n = 1 /\ i = 2)%nat -> pz p <> 0 ->
  efam es n i p = SE es (hd 0%nat (nmi n i)) (tl (nmi n i)) p.
Proof.
  intros Hn Hi Hne Hz. apply sum_ext. intros e _. f_equal.
  destruct n as [|[|[|[|[|[|n]]]]]]; try lia.
  - apply text1; [now apply z_good|]. lia.
  - apply text2; [now apply z_good|exact Hi].
  - apply text3; [now apply z_good|exact Hi].
  - apply text4; [now apply z_good|exact Hi].
  - apply text5; [now apply z_good|exact Hi].
Qed.
Lemma nmi_check :
  forallb (fun n => forallb (fun idx => negb (existsb (fun a => Nat.ltb a 2) idx) ||
    match entry n idx with
    | Sel i => list_eqb (nmi n i) (sorted idx)
    | Lap a b => existsb (fun f => existsb (fun r => existsb (fun ijk =>
         let '(i, j, k) := ijk in
         list_eqb (sorted idx) (sorted (i :: i :: f :: r)) && list_eqb (nmi n a) (sorted (j :: j :: f :: r))
         && list_eqb (nmi n b) (sorted (k :: k :: f :: r))) [(0, 1, 2); (1, 0, 2); (2, 0, 1)]%nat)
        (product3 (n - 3))) [0; 1]%nat
    end) (product3 n)) [2; 3; 4; 5]%nat = true.
Proof. vm_compute. reflexivity. Qed.
Lemma sorted_eqb_perm a b : sorted a = sorted b -> Permutation a b.
Proof. intros H. rewrite (sorted_perm a), (sorted_perm b). now rewrite H. Qed.
Lemma sum_perm3 es f r i j k p : closed es -> In (i, j, k) [(0, 1, 2); (1, 0, 2); (2, 0, 1)]%nat ->
  (f < 2)%nat -> forall n, (n <= 2)%nat -> idx_of_order n r -> pz p <> 0 ->
  TE es (i :: i :: f :: r) p = - TE es (j :: j :: f :: r) p - TE es (k :: k :: f :: r) p.
Proof.
  intros HC Hin Hf n Hn Hr Hz.
  assert (A : forall a, (a < 3)%nat -> TE es (a :: a :: f :: r) p = SE es f (a :: a :: r) p).
  { intros a Ha. rewrite (TE_perm es (a :: a :: f :: r) (f :: a :: a :: r)).
    - apply (TE_cons es (S (S n))); auto; [lia|]. now repeat apply idx_cons.
    - apply Permutation_sym. change (f :: a :: a :: r) with (f :: [a; a] ++ r).
      change (a :: a :: f :: r) with ([a; a] ++ f :: r). apply Permutation_middle. }
  pose proof (SE_laplace es f n r p Hn Hr Hz) as Q.
  destruct Hin as [Hin|[Hin|[Hin|[]]]]; injection Hin as <- <- <-; rewrite !A by lia; lra.
Qed.
Lemma nmi_bound n i : (1 <= n <= 5)%nat -> (i < 2 * n + 1)%nat -> ~ (n = 1 /\ i = 2)%nat ->
  (hd 0%nat (nmi n i) < 2)%nat /\ idx_of_order n (nmi n i) /\ sorted (nmi n i) = nmi n i.
Proof.
  intros Hn Hi Hne.
  assert (C : forallb (fun n => forallb (fun i => (Nat.eqb n 1 && Nat.eqb i 2) ||
     Nat.ltb (hd 0%nat (nmi n i)) 2 && Nat.eqb (length (nmi n i)) n && forallb (fun a => Nat.ltb a 3) (nmi n i)
     && list_eqb (sorted (nmi n i)) (nmi n i))
     (seq 0 (2 * n + 1))) (seq 1 5) = true) by (vm_compute; reflexivity).
  rewrite forallb_forall in C. specialize (C n ltac:(apply in_seq; lia)).
  rewrite forallb_forall in C. specialize (C i ltac:(apply in_seq; lia)).
  apply orb_prop in C. destruct C as [C|C].
  - apply andb_prop in C. destruct C as [C1 C2]. apply Nat.eqb_eq in C1, C2. exfalso. apply Hne. auto.
  - apply andb_prop in C. destruct C as [C C4]. apply andb_prop in C. destruct C as [C C3].
    apply andb_prop in C. destruct C as [C1 C2].
    split; [now apply Nat.ltb_lt|]. split; [|now apply list_eqb_eq].
    split; [now apply Nat.eqb_eq|]. rewrite forallb_forall in C3. apply Forall_forall.
    intros a Ha. apply Nat.ltb_lt. now apply C3.
Qed.
Lemma nmi_split n i : (1 <= n <= 5)%nat -> (i < 2 * n + 1)%nat -> ~ (n = 1 /\ i = 2)%nat ->
  exists h t, nmi n i = h :: t /\ (h < 2)%nat /\ idx_of_order (n - 1) t.
Proof.
  intros Hn Hi Hne. destruct (nmi_bound n i Hn Hi Hne) as (H1 & H2 & _).
  destruct (nmi n i) as [|h t]; [destruct H2 as [H2 _]; cbn in H2; lia|].
  exists h, t. split; [reflexivity|]. split; [exact H1|].
  destruct n as [|n]; [lia|]. replace (S n - 1)%nat with n by lia. now apply idx_tl in H2.
Qed.
Lemma efam_TE es n i p : closed es -> (1 <= n <= 5)%nat -> (i < 2 * n + 1)%nat -> ~ (n = 1 /\ i = 2)%nat ->
  pz p <> 0 -> efam es n i p = TE es (nmi n i) p.
Proof.
  intros HC Hn Hi Hne Hz. rewrite efam_text by assumption. unfold TE.
  now destruct (nmi_bound n i Hn Hi Hne) as (_ & _ & ->).
Qed.
Lemma red_TE es n idx p : closed es -> (2 <= n <= 5)%nat -> idx_of_order n idx ->
  (exists a, In a idx /\ (a < 2)%nat) -> pz p <> 0 ->
  red_val (fun j => efam es n j p) (entry n idx) = TE es idx p.
Proof.
  intros HC Hn Hi (a & Ha & Ha2) Hz. pose proof nmi_check as C.
  rewrite forallb_forall in C. specialize (C n ltac:(cbn; lia)).
  rewrite forallb_forall in C. specialize (C idx (proj2 (product3_in n idx) Hi)).
  apply orb_prop in C. destruct C as [C|C].
  { apply negb_true_iff in C. assert (existsb (fun a => Nat.ltb a 2) idx = true); [|congruence].
    apply existsb_exists. exists a. split; [exact Ha|now apply Nat.ltb_lt]. }
  destruct (entry_single n idx ltac:(lia) Hi) as [_ Hlt].
  destruct (entry n idx) as [i|i j]; cbn [red_val ent_lt] in *.
  - apply Nat.ltb_lt in Hlt. apply list_eqb_eq in C. rewrite efam_TE by (auto; lia).
    rewrite C. apply TE_perm. apply Permutation_sym, sorted_perm.
  - apply andb_prop in Hlt. destruct Hlt as [Hi1 Hi2]. apply Nat.ltb_lt in Hi1, Hi2.
    apply existsb_exists in C. destruct C as (f & Hf & C).
    apply existsb_exists in C. destruct C as (r & Hr & C).
    apply existsb_exists in C. destruct C as ([[a1 a2] a3] & Hin & C).
    apply andb_prop in C. destruct C as [C C3]. apply andb_prop in C. destruct C as [C1 C2].
    apply list_eqb_eq in C1, C2, C3.
    rewrite !efam_TE by (auto; lia). rewrite C2, C3.
    rewrite !(TE_perm es (sorted _) _ p (Permutation_sym (sorted_perm _))).
    rewrite (TE_perm es idx (a1 :: a1 :: f :: r) p) by now apply sorted_eqb_perm.
    symmetry. eapply (sum_perm3 es f r a1 a2 a3 p HC Hin) with (n := (n - 3)%nat); auto.
    + cbn in Hf. lia.
    + lia.
    + now apply product3_in.
Qed.

Lemma partial_ext_z f g k p l : pz p <> 0 -> (k < 3)%nat -> (forall q, pz q <> 0 -> f q = g q) ->
  partial f k p l -> partial g k p l.
Proof.
  intros Hz Hk HE Hf. unfold partial in *. eapply is_derive_ext_loc; [|exact Hf].
  assert (HD : exists d : posreal, forall t, Rabs t < d -> pz (move k t p) <> 0).
  { exists (mkposreal _ (Rabs_pos_lt _ Hz)). cbn [pos]. intros t Ht. rewrite pz_move by exact Hk.
    intros Z. assert (K : dz k = 0 \/ dz k = 1) by (destruct k as [|[|k]]; cbn; auto).
    destruct K as [K|K]; rewrite K in Z; [lra|].
    replace t with (- pz p) in Ht by lra. rewrite Rabs_Ropp in Ht. lra. }
  destruct HD as [d HD]. exists d. intros t Ht. apply HE. apply HD.
  change (Rabs (t - 0) < d) in Ht. rewrite Rminus_0_r in Ht. exact Ht.
Qed.

Lemma RD_edges_xy es n i k p : closed es -> (1 <= n <= 4)%nat -> (i < 2 * n + 1)%nat ->
  ~ (n = 1 /\ i = 2)%nat -> (k < 3)%nat -> pz p <> 0 ->
  partial (efam es n i) k p (red_val (fun j => efam es (S n) j p) (target n i k)).
Proof.
  intros HC Hn Hi Hne Hk Hz.
  destruct (nmi_split n i ltac:(lia) Hi Hne) as (h & t & E1 & Hh & Ht).
  assert (Hht : idx_of_order n (h :: t)).
  { replace n with (S (n - 1)) by lia. apply idx_cons; [lia|exact Ht]. }
  unfold target. fold (nmi n i). rewrite E1.
  rewrite (red_TE es (S n) (k :: h :: t) p); auto; try lia.
  2:{ now apply idx_cons. }
  2:{ exists h. split; [right; now left|exact Hh]. }
  rewrite (TE_perm es (k :: h :: t) (h :: k :: t) p) by constructor.
  rewrite (TE_cons es n h (k :: t) p); auto; try lia.
  2:{ replace n with (S (n - 1)) by lia. now apply idx_cons. }
  apply (partial_ext_z (SE es h t)); auto.
  { intros q Hq. rewrite efam_text by (auto; lia). now rewrite E1. }
  apply (SE_derive es h (n - 1)); auto. lia.
Qed.

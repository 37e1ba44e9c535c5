(** C183: the rounding error of the pseudopotential and of the combined
    potential.  See SpecFloat, SpecFloat3 and SpecFloat4 for what the statements
    mean. *)
From Coq Require Import String.
From Verif Require SpecField ProofSys.
From Verif Require Import Base ModelUtils ModelField ModelFloat ModelFloatField ModelFloatPseudo SpecTensor
  SpecFloat SpecFloat2 SpecFloat3 SpecFloat4 PropsFloat2 PropsFloat3 ProofFloat2 ProofFloat11.
Import ListNotations.
Open Scope R_scope.

(** C183: above the plane, away from the sides and without images in the cover,
    every entry of the pseudopotential of the orders 0 to 4 computed with
    doubles differs from the one in the real numbers by two roundings for every
    addition in a derivative and a fixed number more, compared to the same
    combination of the sizes of the derivatives. *)
Theorem C183_pseudo pw at2 p es s x n c d T T' idx :
  good_pow pw -> good_pi p -> good_einsum es -> no_images s -> 0 < pz x -> clear x s ->
  (d <= 4)%nat -> at_most n (d + 1) x s -> idx_of_order d idx ->
  fpseudo_potential (b64x pw at2 p) es (Some c) s x d = Ok T -> pseudo_potential (Some c) s x d = Ok T' ->
  Rabs (T idx - T' idx) <= gam (2 * (n + roundings (d + 1)) + 15) * pseudo_size c d x s idx.
Proof.
  intros Hw Hp He Hs Hz Hc Hd Hn Hi E E'.
  exact (proj1 (pseudo_bounded pw at2 p Hw Hp es s x n He Hs Hz Hc c d T T' Hd Hn E E' idx Hi)).
Qed.
Print Assumptions C183_pseudo.

(** C183: the pseudopotential itself, with the sizes of the three components of
    the field *)
Theorem C183_value pw at2 p es s x n c T T' :
  good_pow pw -> good_pi p -> good_einsum es -> no_images s -> 0 < pz x -> clear x s ->
  (forall i, (i < 3)%nat -> (slope_count 1 i x s <= n)%nat) ->
  fpseudo_potential (b64x pw at2 p) es (Some c) s x 0 = Ok T -> pseudo_potential (Some c) s x 0 = Ok T' ->
  Rabs (T [] - T' []) <= gam (2 * n + 181) *
    (c ^ 2 * (slope_total 1 0 TRf x s ^ 2 + slope_total 1 1 TRf x s ^ 2 + slope_total 1 2 TRf x s ^ 2)).
Proof.
  intros Hw Hp He Hs Hz Hc Hn E E'. rewrite <- pseudo_order0.
  replace (2 * n + 181)%nat with (2 * (n + roundings (0 + 1)) + 15)%nat by (cbn [roundings Nat.add]; lia).
  refine (C183_pseudo pw at2 p es s x n c 0 T T' [] Hw Hp He Hs Hz Hc _ _ _ E E'); [lia| |split; constructor].
  intros k i Hk Hi. replace k with 1%nat in * by lia. apply Hn; lia.
Qed.
Print Assumptions C183_value.

(** C183: the combined potential of System.potential, orders 1 to 4 *)
Theorem C183_total pw at2 p es s x n c d T T' idx :
  good_pow pw -> good_pi p -> good_einsum es -> no_images s -> 0 < pz x -> clear x s ->
  (1 <= d <= 4)%nat -> at_most n (d + 1) x s -> idx_of_order d idx ->
  ftotal_potential (b64x pw at2 p) es (Some c) s x d "tot" = Ok T -> total_potential (Some c) s x d "tot" = Ok T' ->
  Rabs (T idx - T' idx) <=
  gam (2 * (n + roundings (d + 1)) + 16) * (entry_size d TDc x s idx + pseudo_size c d x s idx).
Proof.
  intros Hw Hp He Hs Hz Hc Hd Hn Hi E E'.
  exact (proj1 (total_bounded pw at2 p Hw Hp es s x n He Hs Hz Hc c d T T' Hd Hn E E' idx Hi)).
Qed.
Print Assumptions C183_total.

(** C183: in plain numbers: with a million additions in a derivative at most,
    both errors are below 5e-10 of the sizes *)
Theorem C183_million pw at2 p es s x c d idx :
  good_pow pw -> good_pi p -> good_einsum es -> no_images s -> 0 < pz x -> clear x s ->
  (d <= 4)%nat -> at_most (10 ^ 6) (d + 1) x s -> idx_of_order d idx ->
  (forall T T', fpseudo_potential (b64x pw at2 p) es (Some c) s x d = Ok T -> pseudo_potential (Some c) s x d = Ok T' ->
     Rabs (T idx - T' idx) <= 5 / 10 ^ 10 * pseudo_size c d x s idx) /\
  (forall T T', (1 <= d)%nat ->
     ftotal_potential (b64x pw at2 p) es (Some c) s x d "tot" = Ok T -> total_potential (Some c) s x d "tot" = Ok T' ->
     Rabs (T idx - T' idx) <= 5 / 10 ^ 10 * (entry_size d TDc x s idx + pseudo_size c d x s idx)).
Proof.
  intros Hw Hp He Hs Hz Hc Hd Hn Hi. pose proof (roundings_242 d Hd) as Rd. split.
  - intros T T' E E'.
    apply (bounded_million (10 ^ 6) (roundings (d + 1)) (2 * (10 ^ 6 + roundings (d + 1)) + 15)); [exact (Nat.le_refl _)|exact Rd|apply Nat.add_le_mono_l; lia|].
    exact (pseudo_bounded pw at2 p Hw Hp es s x (10 ^ 6) He Hs Hz Hc c d T T' Hd Hn E E' idx Hi).
  - intros T T' Hd1 E E'.
    apply (bounded_million (10 ^ 6) (roundings (d + 1)) (2 * (10 ^ 6 + roundings (d + 1)) + 16)); [exact (Nat.le_refl _)|exact Rd|exact (Nat.le_refl _)|].
    exact (total_bounded pw at2 p Hw Hp es s x (10 ^ 6) He Hs Hz Hc c d T T' (conj Hd1 Hd) Hn E E' idx Hi).
Qed.
Print Assumptions C183_million.

(** C183: the pseudopotential is not negative, with doubles either, whatever
    the derivatives are computed with *)
Theorem C183_nonneg A es c s x T : good_einsum es -> fpseudo_potential A es (Some c) s x 0 = Ok T -> 0 <= T [].
Proof. exact (pseudo_nonneg A es c s x T). Qed.
Print Assumptions C183_nonneg.

(** C183: adding the three products from left to right is accurate enough *)
Theorem C183_left pw at2 p : good_einsum (left_einsum (b64x pw at2 p)).
Proof. exact (left_good pw at2 p). Qed.
Print Assumptions C183_left.

(** C183: without rounding these are the potentials of the other theorems,
    errors included *)
Theorem C183_exact c s x d typ :
  fpseudo_potential exact plain_einsum c s x d = pseudo_potential c s x d /\
  ftotal_potential exact plain_einsum c s x d typ = total_potential c s x d typ.
Proof. exact (conj (pseudo_exact c s x d) (total_exact c s x d typ)). Qed.
Print Assumptions C183_exact.

(** C183: nor do the errors depend on the arithmetic *)
Theorem C183_errors A es c s x d typ e :
  (fpseudo_potential A es c s x d = Raise e <-> pseudo_potential c s x d = Raise e) /\
  (ftotal_potential A es c s x d typ = Raise e <-> total_potential c s x d typ = Raise e).
Proof.
  rewrite <- pseudo_exact, <- total_exact.
  exact (conj (alike_raise _ _ e (alike_pseudo A exact es plain_einsum c s x d)) (alike_raise _ _ e (alike_total A exact es plain_einsum c s x d typ))).
Qed.
Print Assumptions C183_errors.

(** a pixel, a triangle and a mesh with rf voltages and a cover with a dc
    voltage, seen from [(0, 0, 4)]: the hypotheses hold with five additions, and
    the sizes are numbers that can be worked out *)
Definition ex_rf : list electrode :=
  [Electrode "a" 0 3 (EPoint [((3, 0), 1)] 0 50);
   Electrode "b" 0 (-5) (EPolygon [[(3, 0); (0, 3); (-3, 0)]] 0 50);
   Electrode "c" 0 1 (EMesh [(3, 0); (0, 3)] [((0, 1), 0)]%nat [2] 0 50);
   Electrode "d" 2 0 (ECover 8)].
Example ex_183 A :
  no_images ex_rf /\ clear (P3 0 0 4) ex_rf /\ at_most 6 5 (P3 0 0 4) ex_rf /\
  (exists T, fpseudo_potential A (left_einsum A) (Some 7) ex_rf (P3 0 0 4) 1 = Ok T) /\
  (exists T, pseudo_potential (Some 7) ex_rf (P3 0 0 4) 1 = Ok T) /\
  idx_of_order 1 [2%nat] /\
  entry_size 1 TDc (P3 0 0 4) ex_rf [2%nat] = 1 / 4.
Proof.
  split; [repeat constructor|]. split.
  { destruct (ex_181 A) as (_ & C & _). unfold clear, ex_all, ex_rf in *. inversion C as [|? ? C1 C']; subst.
    inversion C' as [|? ? C2 C'']; subst. inversion C'' as [|? ? C3 C''']; subst. inversion C''' as [|? ? C4 _]; subst.
    repeat (apply Forall_cons; [assumption|]). apply Forall_nil. }
  split.
  { intros k i Hk Hi. unfold slope_count. cbn [map ex_rf egeom slopes flat_map sides last combine app length list_sum fold_right Nat.add].
    destruct ((k =? 1) && (i =? 2))%nat; cbn; lia. }
  assert (W : forall e, In e ex_rf -> SpecField.well_formed (egeom e)).
  { intros e He. cbn [In ex_rf] in He. destruct He as [<-|[<-|[<-|[<-|[]]]]]; cbn [egeom SpecField.well_formed].
    - exact I.
    - intros [H|[]]. discriminate.
    - intros e [<-|[]]. cbn. lia.
    - exact I. }
  destruct (ProofSys.pseudo_value 7 ex_rf (P3 0 0 4) 1 W ltac:(lia)) as (T & _ & E & _).
  split.
  { destruct (fpseudo_potential A (left_einsum A) (Some 7) ex_rf (P3 0 0 4) 1) as [T'|e] eqn:E'; [exists T'; reflexivity|].
    apply (proj1 (C183_errors A (left_einsum A) (Some 7) ex_rf (P3 0 0 4) 1 ""%string e)) in E'. congruence. }
  split; [exists T; exact E|].
  split; [split; [reflexivity|repeat constructor]|].
  change (entry_size 1 TDc (P3 0 0 4) ex_rf [2%nat]) with (slope_total 1 2 TDc (P3 0 0 4) ex_rf).
  unfold slope_total, ex_rf. cbn [map]. unfold volts. cbn [volt edc egeom].
  unfold total at 1. cbn [fold_right]. rewrite !Rabs_R0. rewrite (Rabs_right 2) by lra.
  cbn [slopes Nat.eqb andb total fold_right]. rewrite (Rabs_right (1 / 8)) by lra. lra.
Qed.

(** C179: turned and mirrored electrodes; derivatives along any direction. *)
From Coquelicot Require Import Coquelicot.
From Coq Require Import Permutation.
From Verif Require Import Base ModelExpr ModelUtils ModelField SpecTensor SpecField SpecPoly SpecTurn ProofTurn2 ProofTurn3.
Import ListNotations.
Open Scope R_scope.

(** The derivative of every entry of the tensors along any direction, not only
    along the axes, is the combination of the entries of the next order. *)
Theorem C179_direction : forall s t n idx p a b c, (n <= 4)%nat -> idx_of_order n idx -> (forall e, In e s -> smooth (egeom e) p) ->
  is_derive (fun r => tensor_entry s t n idx (along a b c r p)) 0
    (a * tensor_entry s t (S n) (0%nat :: idx) p + b * tensor_entry s t (S n) (1%nat :: idx) p + c * tensor_entry s t (S n) (2%nat :: idx) p).
Proof. exact tensor_along. Qed.
Print Assumptions C179_direction.

(** With the electrodes all tensors turn: *)
Theorem C179_turn : forall c s flip, c ^ 2 + s ^ 2 = 1 -> forall sys t d idx p, (d <= 5)%nat -> idx_of_order d idx ->
  (forall e, In e sys -> smooth (egeom e) p) ->
  tensor_entry (turn_system c s flip sys) t d idx (turn3 c s flip p) =
    rot (transpose (turn_matrix c s flip)) (fun j => tensor_entry sys t d j p) idx.
Proof. exact system_turn. Qed.
Print Assumptions C179_turn.

Theorem C179_pseudo : forall c s flip, c ^ 2 + s ^ 2 = 1 -> forall k sys d idx p, (d <= 4)%nat -> idx_of_order d idx ->
  (forall e, In e sys -> smooth (egeom e) p) ->
  pseudo_entry k (turn_system c s flip sys) d idx (turn3 c s flip p) =
    rot (transpose (turn_matrix c s flip)) (fun j => pseudo_entry k sys d j p) idx.
Proof. exact pseudo_turn. Qed.
Print Assumptions C179_pseudo.

(** Electrodes with a symmetry have fields with the symmetry, *)
Theorem C179_symmetric : forall c s flip sys t d idx p, c ^ 2 + s ^ 2 = 1 -> (d <= 5)%nat -> idx_of_order d idx ->
  (forall e, In e sys -> smooth (egeom e) p) -> turn_symmetric c s flip t sys ->
  tensor_entry sys t d idx (turn3 c s flip p) = rot (transpose (turn_matrix c s flip)) (fun j => tensor_entry sys t d j p) idx.
Proof. exact symmetric_turn. Qed.
Print Assumptions C179_symmetric.

(** and on the mirror plane y = 0 the entries with an odd number of y vanish. *)
Theorem C179_mirror_plane : forall sys t d idx p, (d <= 5)%nat -> idx_of_order d idx ->
  (forall e, In e sys -> smooth (egeom e) p) -> turn_symmetric 1 0 true t sys -> py p = 0 ->
  Nat.odd (count_occ Nat.eq_dec idx 1%nat) = true -> tensor_entry sys t d idx p = 0.
Proof. exact mirror_plane. Qed.
Print Assumptions C179_mirror_plane.

(** two squares at 3 V on both sides of y = 0 and a pixel on it *)
Definition C179_pair : list electrode :=
  [Electrode "a" 3 0 (EPolygon [[(0, 1); (1, 1); (1, 2); (0, 2)]] 2 5); Electrode "b" 3 0 (EPolygon [[(0, -2); (1, -2); (1, -1); (0, -1)]] 2 5);
   Electrode "c" (-1) 0 (EPoint [((4, 0), 1)] 2 5)].
Example ex_179 : turn_symmetric 1 0 true TDc C179_pair /\ (forall e, In e C179_pair -> smooth (egeom e) (P3 (1 / 2) 0 1)) /\
  tensor_entry C179_pair TDc 1 [1%nat] (P3 (1 / 2) 0 1) = 0 /\ tensor_entry C179_pair TDc 3 [1%nat; 1%nat; 1%nat] (P3 (1 / 2) 0 1) = 0.
Proof.
  assert (Y : turn_symmetric 1 0 true TDc C179_pair).
  { exists [Electrode "b" 3 0 (EPolygon [[(0, -2); (1, -2); (1, -1); (0, -1)]] 2 5); Electrode "a" 3 0 (EPolygon [[(0, 1); (1, 1); (1, 2); (0, 2)]] 2 5); Electrode "c" (-1) 0 (EPoint [((4, 0), 1)] 2 5)].
    split; [apply perm_swap|]. unfold C179_pair, turn_system. cbn [map turn_geom egeom ename edc erf rev app]. unfold turn2, turn_matrix. cbn [fst snd].
    constructor; [|constructor; [|constructor; [|constructor]]]; (split; [reflexivity|]); (split; [cbn [egeom well_formed]; first [intros [H|[]]; discriminate|exact Logic.I]|]); intros d i p; cbn [egeom]; apply f_equal4; try reflexivity.
    all: repeat first [progress f_equal | ring]. }
  assert (S : forall e, In e C179_pair -> smooth (egeom e) (P3 (1 / 2) 0 1)).
  { assert (K : forall k, In k (images 2) -> 1 + 2 * IZR k * 5 <> 0).
    { intros k K. change (images 2) with [-2; -1; 0; 1; 2]%Z in K. repeat destruct K as [<-|K]; try lra. destruct K. }
    intros e [<-|[<-|[<-|[]]]]; cbn [egeom smooth well_formed off_electrode].
    - split; [intros [H|[]]; discriminate|]. intros k Hk. unfold image. cbn [pz]. apply K, Hk.
    - split; [intros [H|[]]; discriminate|]. intros k Hk. unfold image. cbn [pz]. apply K, Hk.
    - intros v a k [[= <- <-]|[]] Hk. unfold dist, image. cbn [px py pz fst snd]. apply sqrt_lt_R0. pose proof (pow2_gt_0 _ (K k Hk)). pose proof (pow2_ge_0 (1 / 2 - 4)). pose proof (pow2_ge_0 (0 - 0)). lra. }
  split; [exact Y|]. split; [exact S|]. split; apply (C179_mirror_plane C179_pair); try exact S; try exact Y; try reflexivity; try lia; split; [reflexivity|repeat constructor|reflexivity|repeat constructor].
Qed.

(** Proof of C179: symmetric electrodes. *)
From Coquelicot Require Import Coquelicot.
From Coq Require Import Permutation.
From Verif Require Import Base ModelExpr ModelUtils ModelField SpecTensor SpecField SpecPoly SpecTurn ProofTensor ProofField ProofPixel ProofDeriv ProofSys ProofPoly ProofPoly2 ProofTurn ProofTurn2.
Import ListNotations.
Open Scope R_scope.
Notation length := List.length.

Lemma sum_permutation {A} (l l' : list A) (f : A -> R) : Permutation l l' -> sum_over l f = sum_over l' f.
Proof. intros P. unfold sum_over. induction P; cbn [map sumR]; lra. Qed.
Lemma volt_eq t e e' : volt t e = volt t e' -> volt_of t e = volt_of t e'.
Proof. intros H. unfold volt_of. destruct t; cbn [volt] in H; [injection H as ->|injection H as ->|]; reflexivity. Qed.
Lemma symmetric_term c s flip t sys d i p : wf (turn_system c s flip sys) -> turn_symmetric c s flip t sys -> sys_term (turn_system c s flip sys) t d i p = sys_term sys t d i p.
Proof.
  intros W (sys' & P & H). unfold sys_term. rewrite (sum_permutation sys sys' _ P). clear P. induction H as [|e e' l l' (V & W' & E) H IH]; [reflexivity|].
  unfold sum_over in *. cbn [map sumR]. rewrite IH by (intros x X; apply W; right; exact X). rewrite (volt_eq t e e' V). rewrite <- !value_unit by (try exact W'; apply W; left; reflexivity). rewrite E. reflexivity.
Qed.
Lemma symmetric_turn c s flip sys t d idx p : c ^ 2 + s ^ 2 = 1 -> (d <= 5)%nat -> idx_of_order d idx -> (forall e, In e sys -> smooth (egeom e) p) -> turn_symmetric c s flip t sys ->
  tensor_entry sys t d idx (turn3 c s flip p) = rot (transpose (turn_matrix c s flip)) (fun j => tensor_entry sys t d j p) idx.
Proof.
  intros U D I S Y. rewrite <- (system_turn c s flip U sys t d idx p D I S).
  assert (W : wf (turn_system c s flip sys)) by (intros e He; eapply smooth_wf, (system_turn_smooth c s flip U sys p S), He).
  assert (W0 : wf sys) by (intros e He; eapply smooth_wf, S, He).
  rewrite !tensor_entry_eq by (try assumption; lia). unfold tab.
  rewrite (map_ext_in (fun i => sys_term (turn_system c s flip sys) t d i (turn3 c s flip p)) (fun i => sys_term sys t d i (turn3 c s flip p))); [reflexivity|].
  intros i _. apply symmetric_term; assumption.
Qed.
Lemma rot_diag r idx : (forall i j, (i < 3)%nat -> (j < 3)%nat -> i <> j -> r i j = 0) -> axes_ok idx -> forall T, rot r T idx = fold_right (fun a x => r a a * x) (T idx) idx.
Proof.
  intros H I. induction I as [|a idx A I IH]; intros T; [reflexivity|]. cbn [rot fold_right].
  rewrite !IH. assert (Z : forall b, (b < 3)%nat -> b <> a -> r b a = 0) by (intros b B NE; apply H; assumption).
  destruct a as [|[|[|a]]]; [| | |lia].
  - rewrite (Z 1%nat), (Z 2%nat) by lia. ring.
  - rewrite (Z 0%nat), (Z 2%nat) by lia. ring.
  - rewrite (Z 0%nat), (Z 1%nat) by lia. ring.
Qed.
Lemma mirror_plane sys t d idx p : (d <= 5)%nat -> idx_of_order d idx -> (forall e, In e sys -> smooth (egeom e) p) -> turn_symmetric 1 0 true t sys -> py p = 0 ->
  Nat.odd (count_occ Nat.eq_dec idx 1%nat) = true -> tensor_entry sys t d idx p = 0.
Proof.
  intros D I S Y P O. assert (U : 1 ^ 2 + 0 ^ 2 = 1) by ring. pose proof (symmetric_turn 1 0 true sys t d idx p U D I S Y) as E.
  replace (turn3 1 0 true p) with p in E by (destruct p as [x y z]; unfold turn3, turn2, turn_matrix; cbn [px py pz fst snd] in *; subst y; f_equal; ring).
  rewrite rot_diag in E; [|intros i j Hi Hj N; unfold transpose, turn_matrix; destruct i as [|[|[|i]]], j as [|[|[|j]]]; try lia; ring|apply I].
  enough (X : fold_right (fun a x => transpose (turn_matrix 1 0 true) a a * x) (tensor_entry sys t d idx p) idx = - tensor_entry sys t d idx p) by (rewrite X in E; lra).
  destruct I as [_ A]. clear E D S Y P. set (v := tensor_entry sys t d idx p). clearbody v.
  assert (X : forall l, axes_ok l -> fold_right (fun a x => transpose (turn_matrix 1 0 true) a a * x) v l = if Nat.odd (count_occ Nat.eq_dec l 1%nat) then - v else v).
  { induction l as [|a l IH]; intros L; [reflexivity|]. inversion L as [|? ? B L']; subst. cbn [fold_right]. rewrite IH by exact L'. clear IH.
    destruct a as [|[|[|a]]]; [| | |lia]; cbn [count_occ]; destruct (Nat.eq_dec _ _) as [Q|Q]; try lia; cbv [transpose turn_matrix].
    - destruct (Nat.odd _); ring.
    - rewrite Nat.odd_succ, <- Nat.negb_odd. set (o := Nat.odd _). destruct o; cbn [negb]; ring.
    - destruct (Nat.odd _); ring. }
  rewrite (X idx A), O. reflexivity.
Qed.

(** The transcribed polygon expressions of order 1 to 5 as coefficient times
    derivative of z G_00. *)
From Coquelicot Require Import Coquelicot.
From Verif Require Import Base ModelExpr ModelUtils ModelField SpecTensor SpecField
  ProofTensor ProofField ProofPixel ProofDeriv ProofSys ProofEdgeG ProofEdgeP.
Open Scope R_scope.
Notation length := List.length.

(** G_ab over the common denominator (r1 r2)^(2n-1) L^n *)
Definition Nc (n : nat) (r1 r2 L : R) (a b : nat) : R :=
  Gnum a b r1 r2 L * (r1 ^ (2 * (n - 1 - a)) * r2 ^ (2 * (n - 1 - b)) * L ^ (n - 1 - a - b)).
Definition Den (n : nat) (r1 r2 L : R) : R := 1 / (r1 * r2) ^ (2 * n - 1) / L ^ n.
Lemma G_common n a b r1 r2 l2 : (a + b < n)%nat -> 0 < r1 -> 0 < r2 -> 0 < Lof r1 r2 l2 ->
  G a b r1 r2 l2 = Den n r1 r2 (Lof r1 r2 l2) * Nc n r1 r2 (Lof r1 r2 l2) a b.
Proof.
  intros Hab H1 H2 HL. unfold G, Den, Nc. set (L := Lof r1 r2 l2) in *.
  replace ((r1 * r2) ^ (2 * n - 1)) with
    (r1 ^ (2 * a + 1) * r1 ^ (2 * (n - 1 - a)) * (r2 ^ (2 * b + 1) * r2 ^ (2 * (n - 1 - b)))).
  2:{ rewrite Rpow_mult_distr. rewrite <- !pow_add. f_equal; f_equal; lia. }
  replace (L ^ n) with (L ^ (a + b + 1) * L ^ (n - 1 - a - b)) by (rewrite <- pow_add; f_equal; lia).
  field. repeat split; apply pow_nonzero; lra.
Qed.
Lemma evalp_common n x1 x2 y1 y2 z r1 r2 l2 q :
  forallb (fun m => Nat.ltb (gdeg m) n) q = true ->
  0 < r1 -> 0 < r2 -> 0 < Lof r1 r2 l2 ->
  evalp x1 x2 y1 y2 z (fun a b => G a b r1 r2 l2) q =
  Den n r1 r2 (Lof r1 r2 l2) * evalp x1 x2 y1 y2 z (Nc n r1 r2 (Lof r1 r2 l2)) q.
Proof.
  intros Hq H1 H2 HL. induction q as [|m q IH]; [unfold evalp, sum_over; cbn; ring|].
  cbn [forallb] in Hq. apply andb_prop in Hq. destruct Hq as [Hm Hq].
  rewrite !evalp_cons, IH by exact Hq. destruct m as [c e1 e2 e3 e4 e5 a b].
  cbn [gdeg] in Hm. apply Nat.ltb_lt in Hm. cbn [evalm]. rewrite (G_common n) by assumption. ring.
Qed.

(** coefficient of an edge in the x and y components *)
Definition cf (v1 v2 : p2) (k : nat) : R :=
  match k with 0%nat => - (snd v2 - snd v1) / PI | _ => (fst v2 - fst v1) / PI end.
Definition nmi (n i : nat) : list nat := name_idx (nth i (names_of n) ""%string).

(** [p] is not on the closed edge *)
Definition good (v1 v2 : p2) (p : p3) : Prop :=
  0 < dist p v1 /\ 0 < dist p v2 /\ 0 < Lof (dist p v1) (dist p v2) (l2of v1 v2).
Lemma z_good v1 v2 p : pz p <> 0 -> good v1 v2 p.
Proof. intros H. repeat split; try apply dist_pos; try apply L_pos; exact H. Qed.

(** the polynomial identity behind one entry *)
Definition cfx (x1 x2 y1 y2 : R) (k : nat) : R :=
  match k with 0%nat => - (y1 - y2) | _ => x1 - x2 end.
Lemma text_of n i (tx : R -> R -> R -> R -> R -> R -> R -> R -> R) v1 v2 p :
  good v1 v2 p ->
  (forall x1 x2 y1 y2 r1 r2 l2 z,
     nth i (edge_expr n x1 x2 y1 y2 r1 r2 l2 z 1) 0 =
       tx x1 x2 y1 y2 r1 r2 l2 z * (1 / (r1 * r2) ^ (2 * n - 1) / ((r1 + r2) ^ 2 - l2) ^ n / PI)) ->
  forallb (fun m => Nat.ltb (gdeg m) n) (P (tl (nmi n i))) = true ->
  (forall x1 x2 y1 y2 r1 r2 z, x1 ^ 2 = r1 ^ 2 - y1 ^ 2 - z ^ 2 -> x2 ^ 2 = r2 ^ 2 - y2 ^ 2 - z ^ 2 ->
     let l2 := r1 ^ 2 + r2 ^ 2 - 2 * z ^ 2 - 2 * x1 * x2 - 2 * y1 * y2 in
     tx x1 x2 y1 y2 r1 r2 l2 z = cfx x1 x2 y1 y2 (hd 0%nat (nmi n i)) *
       evalp x1 x2 y1 y2 z (Nc n r1 r2 ((r1 + r2) ^ 2 - l2)) (P (tl (nmi n i)))) ->
  edge_term n v1 v2 i p = cf v1 v2 (hd 0%nat (nmi n i)) * E v1 v2 (tl (nmi n i)) p.
Proof.
  intros Hz HT HP HI. unfold edge_term. rewrite HT. unfold E, ep.
  change (Gp v1 v2 p) with (fun a b => G a b (dist p v1) (dist p v2) (l2of v1 v2)).
  rewrite (evalp_common n) by (auto; apply Hz).
  pose proof (dist_sq p v1) as E1. pose proof (dist_sq p v2) as E2.
  specialize (HI (px p - fst v1) (px p - fst v2) (py p - snd v1) (py p - snd v2) (dist p v1) (dist p v2) (pz p)
    ltac:(rewrite E1; ring) ltac:(rewrite E2; ring)).
  cbn zeta in HI.
  set (L2 := dist p v1 ^ 2 + dist p v2 ^ 2 - 2 * pz p ^ 2 - 2 * (px p - fst v1) * (px p - fst v2)
    - 2 * (py p - snd v1) * (py p - snd v2)) in HI.
  assert (EL : l2of v1 v2 = L2) by (unfold l2of, L2; rewrite E1, E2; ring).
  fold (l2of v1 v2). rewrite EL, HI. unfold Lof, Den.
  assert (EC : cf v1 v2 (hd 0%nat (nmi n i)) =
    cfx (px p - fst v1) (px p - fst v2) (py p - snd v1) (py p - snd v2) (hd 0%nat (nmi n i)) / PI).
  { unfold cf, cfx. destruct (hd 0%nat (nmi n i)); f_equal; ring. }
  rewrite EC. unfold Rdiv. ring.
Qed.

Ltac text_goal expr :=
  match goal with |- context [edge_term ?n ?v1 ?v2 ?i ?p] =>
    let f := eval cbv beta iota zeta delta [nth edge_expr expr] in
      (fun x1 x2 y1 y2 r1 r2 l2 z => nth i (edge_expr n x1 x2 y1 y2 r1 r2 l2 z 1) 0) in
    match f with (fun x1 x2 y1 y2 r1 r2 l2 z => @?t x1 x2 y1 y2 r1 r2 l2 z * @?nn x1 x2 y1 y2 r1 r2 l2 z) =>
      apply (text_of n i t v1 v2 p);
      [ assumption
      | intros; reflexivity
      | vm_compute; reflexivity
      | let q := eval vm_compute in (P (tl (nmi n i))) in
        let h := eval vm_compute in (hd 0%nat (nmi n i)) in
        change (P (tl (nmi n i))) with q; change (hd 0%nat (nmi n i)) with h;
        intros x1 x2 y1 y2 r1 r2 z H1 H2;
        cbv beta iota zeta delta [cfx evalp evalm sum_over sumR map fold_right Nc Gnum Nat.mul Nat.sub Nat.add];
        ring [H1 H2] ]
    end
  end.
Ltac text_all i expr :=
  repeat (tryif (exfalso; lia) then idtac else (destruct i as [|i]; [ text_goal expr |])); exfalso; lia.

Lemma text2 i v1 v2 p : good v1 v2 p -> (i < 5)%nat ->
  edge_term 2 v1 v2 i p = cf v1 v2 (hd 0%nat (nmi 2 i)) * E v1 v2 (tl (nmi 2 i)) p.
Proof. intros Hz Hi. text_all i edge_expr2. Qed.
Lemma text3 i v1 v2 p : good v1 v2 p -> (i < 7)%nat ->
  edge_term 3 v1 v2 i p = cf v1 v2 (hd 0%nat (nmi 3 i)) * E v1 v2 (tl (nmi 3 i)) p.
Proof. intros Hz Hi. text_all i edge_expr3. Qed.
Lemma text4 i v1 v2 p : good v1 v2 p -> (i < 9)%nat ->
  edge_term 4 v1 v2 i p = cf v1 v2 (hd 0%nat (nmi 4 i)) * E v1 v2 (tl (nmi 4 i)) p.
Proof. intros Hz Hi. text_all i edge_expr4. Qed.

Lemma E_nil v1 v2 p : E v1 v2 [] p = pz p * Gp v1 v2 p 0 0.
Proof.
  unfold E, ep. change (P []) with [M 1 0 0 0 0 1 0 0].
  rewrite evalp_cons, evalp_nil. cbn [evalm pow]. ring.
Qed.
Lemma text1 i v1 v2 p : good v1 v2 p -> (i < 2)%nat ->
  edge_term 1 v1 v2 i p = cf v1 v2 (hd 0%nat (nmi 1 i)) * E v1 v2 (tl (nmi 1 i)) p.
Proof.
  intros Hz Hi. pose proof PI_RGT_0.
  destruct Hz as (Hz1 & Hz2 & HL).
  destruct i as [|[|i]]; [| |lia].
  - change (nmi 1 0) with [0%nat]. cbn [hd tl]. rewrite E_nil.
    unfold Gp, G, edge_term, cf. cbn [edge_expr edge_expr1 nth Gnum Nat.mul Nat.add].
    fold (l2of v1 v2). fold (Lof (dist p v1) (dist p v2) (l2of v1 v2)). field. repeat split; lra.
  - change (nmi 1 1) with [1%nat]. cbn [hd tl]. rewrite E_nil.
    unfold Gp, G, edge_term, cf. cbn [edge_expr edge_expr1 nth Gnum Nat.mul Nat.add].
    fold (l2of v1 v2). fold (Lof (dist p v1) (dist p v2) (l2of v1 v2)). field. repeat split; lra.
Qed.

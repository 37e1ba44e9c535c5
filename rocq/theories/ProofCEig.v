(** Reduction of a symmetric 4 x 4 matrix to tridiagonal form. *)
From Verif Require Import Base ModelTrans SpecTrans ModelCExt ModelCEig SpecCEig.
Open Scope R_scope.
Notation length := List.length.

Ltac each4 := repeat match goal with H : (?i < 4)%nat |- _ =>
  destruct i as [|[|[|[|i]]]]; [clear H|clear H|clear H|clear H|exfalso; lia] end.

(** a mirror in the hyperplane orthogonal to u *)
Definition mirror (u : nat -> R) (h : R) : nat -> nat -> R := fun i j => (if (i =? j)%nat then 1 else 0) - u i * u j / h.
Lemma mirror_orthogonal u h : h <> 0 -> len2 u = 2 * h -> orthogonal4 (mirror u h).
Proof.
  intros Hh Hu i j Hi Hj.
  assert (E : vsum 4 (fun k => mirror u h i k * mirror u h j k) = (if (i =? j)%nat then 1 else 0) + u i * u j * (len2 u - 2 * h) / (h * h)).
  { unfold mirror, len2. each4; cbn [vsum Nat.eqb]; field; exact Hh. }
  assert (E2 : vsum 4 (fun k => mirror u h k i * mirror u h k j) = vsum 4 (fun k => mirror u h i k * mirror u h j k)).
  { unfold mirror. each4; cbn [vsum Nat.eqb]; field; exact Hh. }
  split.
  - rewrite E, Hu. field. exact Hh.
  - rewrite E2, E, Hu. field. exact Hh.
Qed.
Lemma eye_orthogonal : orthogonal4 (fun i j => if (i =? j)%nat then 1 else 0).
Proof. intros i j Hi Hj. each4; cbn [vsum Nat.eqb]; split; ring. Qed.
Lemma eye_conjugate m i j : (i < 4)%nat -> (j < 4)%nat -> conjugate (fun i j => if (i =? j)%nat then 1 else 0) m i j = m i j.
Proof. intros Hi Hj. unfold conjugate. each4; cbn [vsum Nat.eqb]; ring. Qed.

Definition mul4 (a b : nat -> nat -> R) : nat -> nat -> R := fun i j => vsum 4 (fun k => a i k * b k j).
Lemma conjugate_mul p q m i j : conjugate p (conjugate q m) i j = conjugate (mul4 p q) m i j.
Proof. unfold conjugate, mul4. cbn [vsum]. ring. Qed.
Lemma conjugate_ext p m m' i j : (forall k l, (k < 4)%nat -> (l < 4)%nat -> m k l = m' k l) -> conjugate p m i j = conjugate p m' i j.
Proof. intros H. unfold conjugate. cbn [vsum]. rewrite !H by lia. reflexivity. Qed.
Lemma orthogonal_mul p q : orthogonal4 p -> orthogonal4 q -> orthogonal4 (mul4 p q).
Proof.
  intros HP HQ i j Hi Hj. split.
  - assert (E : vsum 4 (fun k => mul4 p q i k * mul4 p q j k) = vsum 4 (fun a => vsum 4 (fun b => p i a * p j b * vsum 4 (fun k => q a k * q b k)))).
    { unfold mul4. cbn [vsum]. ring. }
    rewrite E. cbn [vsum]. 
    assert (G : forall a b, (a < 4)%nat -> (b < 4)%nat -> 0 + q a 0%nat * q b 0%nat + q a 1%nat * q b 1%nat + q a 2%nat * q b 2%nat + q a 3%nat * q b 3%nat = if (a =? b)%nat then 1 else 0).
    { intros a b Ha Hb. destruct (HQ a b Ha Hb) as [H _]. cbn [vsum] in H. exact H. }
    rewrite !G by lia. cbn [Nat.eqb]. destruct (HP i j Hi Hj) as [H _]. rewrite <- H. cbn [vsum]. ring.
  - assert (E : vsum 4 (fun k => mul4 p q k i * mul4 p q k j) = vsum 4 (fun a => vsum 4 (fun b => q a i * q b j * vsum 4 (fun k => p k a * p k b)))).
    { unfold mul4. cbn [vsum]. ring. }
    rewrite E. cbn [vsum]. 
    assert (G : forall a b, (a < 4)%nat -> (b < 4)%nat -> 0 + p 0%nat a * p 0%nat b + p 1%nat a * p 1%nat b + p 2%nat a * p 2%nat b + p 3%nat a * p 3%nat b = if (a =? b)%nat then 1 else 0).
    { intros a b Ha Hb. destruct (HP a b Ha Hb) as [_ H]. cbn [vsum] in H. exact H. }
    rewrite !G by lia. cbn [Nat.eqb]. destruct (HQ i j Hi Hj) as [_ H]. rewrite <- H. cbn [vsum]. ring.
Qed.

(** the symmetric matrix with this upper triangle *)
Definition sym (m0 m1 m2 m3 m5 m6 m7 m10 m11 m15 : R) : nat -> nat -> R :=
  arr16 m0 m1 m2 m3 m1 m5 m6 m7 m2 m6 m10 m11 m3 m7 m11 m15.

(** n has the sign of x0: then h is positive *)
Lemma householder_signs x0 t n : 0 <= t -> eps < sqrt (x0 * x0 + t) -> n = (if Rlt_dec x0 0 then - sqrt (x0 * x0 + t) else sqrt (x0 * x0 + t)) ->
  let h := ((x0 + n) * (x0 + n) + t) / 2 in 0 < h /\ h = n * (x0 + n) /\ n * n = x0 * x0 + t.
Proof.
  intros Ht He En. cbv zeta.
  assert (Hq : 0 <= x0 * x0 + t) by (pose proof (Rle_0_sqr x0) as Q; unfold Rsqr in Q; lra).
  pose proof (sqrt_sqrt _ Hq) as Hs. set (s := sqrt (x0 * x0 + t)) in *.
  assert (He0 : 0 < eps) by (unfold eps; apply Rinv_0_lt_compat; apply pow_lt; lra).
  assert (Hn : n * n = x0 * x0 + t) by (subst n; destruct (Rlt_dec x0 0); [replace (- s * - s) with (s * s) by ring|]; exact Hs).
  assert (Hx : 0 <= x0 * n).
  { subst n. destruct (Rlt_dec x0 0) as [L|L]; [replace (x0 * - s) with ((- x0) * s) by ring|]; apply Rmult_le_pos; lra. }
  assert (Hnn : 0 < n * n) by (rewrite Hn, <- Hs; apply Rmult_lt_0_compat; lra).
  assert (E : ((x0 + n) * (x0 + n) + t) / 2 = n * (x0 + n)).
  { replace t with (n * n - x0 * x0) by lra. field. }
  split; [|split; [exact E|exact Hn]]. rewrite E. replace (n * (x0 + n)) with (x0 * n + n * n) by ring. lra.
Qed.

Definition first_step (M : nat -> R) : R * R * R * R * R * R * R :=
    let u0 := M 1%nat in let u1 := M 2%nat in let u2 := M 3%nat in
    let t := u1 * u1 + u2 * u2 in
    let n := sqrt (u0 * u0 + t) in
    if Rlt_dec eps n then
      let n := if Rlt_dec u0 0 then - n else n in
      let u0 := u0 + n in
      let h := (u0 * u0 + t) / 2 in
      let v0 := M 5%nat * u0 + M 6%nat * u1 + M 7%nat * u2 in
      let v1 := M 6%nat * u0 + M 10%nat * u1 + M 11%nat * u2 in
      let v2 := M 7%nat * u0 + M 11%nat * u1 + M 15%nat * u2 in
      let v0 := v0 / h in let v1 := v1 / h in let v2 := v2 / h in
      let g := (u0 * v0 + u1 * v1 + u2 * v2) / (2 * h) in
      let v0 := v0 - g * u0 in let v1 := v1 - g * u1 in let v2 := v2 - g * u2 in
      (- n, M 5%nat - 2 * v0 * u0, M 6%nat - (v1 * u0 + v0 * u1), M 7%nat - (v2 * u0 + v0 * u2),
       M 10%nat - 2 * v1 * u1, M 11%nat - (v2 * u1 + v1 * u2), M 15%nat - 2 * v2 * u2)
    else (M 1%nat, M 5%nat, M 6%nat, M 7%nat, M 10%nat, M 11%nat, M 15%nat).
Definition second_step (m6 m7 m10 m11 m15 : R) : R * R * R * R :=
    let u0 := m6 in let u1 := m7 in
    let t := u1 * u1 in
    let n := sqrt (u0 * u0 + t) in
    if Rlt_dec eps n then
      let n := if Rlt_dec u0 0 then - n else n in
      let u0 := u0 + n in
      let h := (u0 * u0 + t) / 2 in
      let v0 := m10 * u0 + m11 * u1 in
      let v1 := m11 * u0 + m15 * u1 in
      let v0 := v0 / h in let v1 := v1 / h in
      let g := (u0 * v0 + u1 * v1) / (2 * h) in
      let v0 := v0 - g * u0 in let v1 := v1 - g * u1 in
      (- n, m10 - 2 * v0 * u0, m11 - (v1 * u0 + v0 * u1), m15 - 2 * v1 * u1)
    else (m6, m10, m11, m15).
Lemma tridiagonalize_steps m : c_tridiagonalize m =
  let M := at16 m in
  let '(m1, m5, m6, m7, m10, m11, m15) := first_step M in
  let '(m6, m10, m11, m15) := second_step m6 m7 m10 m11 m15 in
  (vec4 (M 0%nat) m5 m10 m15, vec3 m1 m6 m11).
Proof. reflexivity. Qed.

Lemma sqrt_small x y : sqrt (x * x + y) <= eps -> 0 <= y -> Rabs x <= eps.
Proof.
  intros H Hy. eapply Rle_trans; [|exact H]. rewrite <- sqrt_Rsqr_abs. apply sqrt_le_1_alt. unfold Rsqr. lra.
Qed.

Section mirrors.
Variables (h : R) (Hh0 : h <> 0).
Lemma mirror_once m0 m1 m5 m6 m7 m10 m11 m15 w1 w2 w3 n0 : w1 = m1 + n0 -> w1 * w1 + (w2 * w2 + w3 * w3) = 2 * h -> h = n0 * w1 ->
  let u := vec4 0 w1 w2 w3 in
  let v0 := (m5 * w1 + m6 * w2 + m7 * w3) / h in let v1 := (m6 * w1 + m10 * w2 + m11 * w3) / h in let v2 := (m7 * w1 + m11 * w2 + m15 * w3) / h in
  let g := (w1 * v0 + w2 * v1 + w3 * v2) / (2 * h) in
  let v0 := v0 - g * w1 in let v1 := v1 - g * w2 in let v2 := v2 - g * w3 in
  forall i j, (i < 4)%nat -> (j < 4)%nat ->
  conjugate (mirror u h) (sym m0 m1 w2 w3 m5 m6 m7 m10 m11 m15) i j =
  sym m0 (- n0) 0 0 (m5 - 2 * v0 * w1) (m6 - (v1 * w1 + v0 * w2)) (m7 - (v2 * w1 + v0 * w3)) (m10 - 2 * v1 * w2) (m11 - (v2 * w2 + v1 * w3)) (m15 - 2 * v2 * w3) i j.
Proof.
  intros E1 E2 E3. cbv zeta. intros i j Hi Hj.
  assert (Em : m1 = w1 - n0) by lra. subst m1. clear E1.
  assert (Ex : (w1 - n0) * w1 + w2 * w2 + w3 * w3 = h) by lra.
  unfold conjugate, mirror, sym, arr16, rows4, vec4.
  each4; cbn [vsum Nat.eqb]; try (field; exact Hh0).
  all: first [ transitivity (w1 - n0 - w1 * ((w1 - n0) * w1 + w2 * w2 + w3 * w3) / h); [field; exact Hh0|rewrite Ex; field; exact Hh0]
             | transitivity (w2 - w2 * ((w1 - n0) * w1 + w2 * w2 + w3 * w3) / h); [field; exact Hh0|rewrite Ex; field; exact Hh0]
             | transitivity (w3 - w3 * ((w1 - n0) * w1 + w2 * w2 + w3 * w3) / h); [field; exact Hh0|rewrite Ex; field; exact Hh0] ].
Qed.
Lemma mirror_twice m0 m1 e2 e3 m5 m6 m10 m11 m15 w1 w2 n0 : w1 = m6 + n0 -> w1 * w1 + w2 * w2 = 2 * h -> h = n0 * w1 ->
  let u := vec4 0 0 w1 w2 in
  let v0 := (m10 * w1 + m11 * w2) / h in let v1 := (m11 * w1 + m15 * w2) / h in
  let g := (w1 * v0 + w2 * v1) / (2 * h) in
  let v0 := v0 - g * w1 in let v1 := v1 - g * w2 in
  forall i j, (i < 4)%nat -> (j < 4)%nat ->
  conjugate (mirror u h) (sym m0 m1 e2 e3 m5 m6 w2 m10 m11 m15) i j =
  sym m0 m1 (e2 - (w1 * e2 + w2 * e3) / h * w1) (e3 - (w1 * e2 + w2 * e3) / h * w2) m5 (- n0) 0 (m10 - 2 * v0 * w1) (m11 - (v1 * w1 + v0 * w2)) (m15 - 2 * v1 * w2) i j.
Proof.
  intros E1 E2 E3. cbv zeta. intros i j Hi Hj.
  assert (Em : m6 = w1 - n0) by lra. subst m6. clear E1.
  assert (Ex : (w1 - n0) * w1 + w2 * w2 = h) by lra.
  unfold conjugate, mirror, sym, arr16, rows4, vec4.
  each4; cbn [vsum Nat.eqb]; try (field; exact Hh0).
  all: first [ transitivity (w1 - n0 - w1 * ((w1 - n0) * w1 + w2 * w2) / h); [field; exact Hh0|rewrite Ex; field; exact Hh0]
             | transitivity (w2 - w2 * ((w1 - n0) * w1 + w2 * w2) / h); [field; exact Hh0|rewrite Ex; field; exact Hh0] ].
Qed.
Lemma mirror_back u a b : len2 u = 2 * h -> (forall i j, (i < 4)%nat -> (j < 4)%nat -> conjugate (mirror u h) a i j = b i j) ->
  forall i j, (i < 4)%nat -> (j < 4)%nat -> a i j = conjugate (mirror u h) b i j.
Proof.
  intros Hu H i j Hi Hj. pose proof (mirror_orthogonal u h Hh0 Hu) as Ho.
  rewrite <- (conjugate_ext _ _ _ i j H), conjugate_mul.
  assert (E : forall k l, (k < 4)%nat -> (l < 4)%nat -> mul4 (mirror u h) (mirror u h) k l = if (k =? l)%nat then 1 else 0).
  { clear i j Hi Hj. intros k l Hk Hl. destruct (Ho k l Hk Hl) as [_ G]. rewrite <- G. clear G. unfold mul4, mirror. each4; cbn [vsum Nat.eqb]; field; exact Hh0. }
  symmetry. rewrite <- (eye_conjugate a i j Hi Hj). unfold conjugate. cbn [vsum]. rewrite !E by lia. reflexivity.
Qed.
End mirrors.

Lemma first_step_ok M : exists q e2 e3,
  let '(m1, m5, m6, m7, m10, m11, m15) := first_step M in
  orthogonal4 q /\ e2 * e2 + e3 * e3 <= eps * eps /\
  forall i j, (i < 4)%nat -> (j < 4)%nat ->
    sym (M 0%nat) (M 1%nat) (M 2%nat) (M 3%nat) (M 5%nat) (M 6%nat) (M 7%nat) (M 10%nat) (M 11%nat) (M 15%nat) i j =
    conjugate q (sym (M 0%nat) m1 e2 e3 m5 m6 m7 m10 m11 m15) i j.
Proof.
  assert (He0 : 0 < eps) by (unfold eps; apply Rinv_0_lt_compat; apply pow_lt; lra).
  assert (Ht : 0 <= M 2%nat * M 2%nat + M 3%nat * M 3%nat) by (pose proof (Rle_0_sqr (M 2%nat)) as A; pose proof (Rle_0_sqr (M 3%nat)) as B; unfold Rsqr in *; lra).
  unfold first_step. cbv zeta. destruct (Rlt_dec eps _) as [L|L].
  - match goal with |- context [if Rlt_dec (M 1%nat) 0 then - ?s else ?s] => set (n := if Rlt_dec (M 1%nat) 0 then - s else s) end.
    destruct (householder_signs (M 1%nat) _ n Ht L eq_refl) as [Hh [Eh En]].
    set (h := ((M 1%nat + n) * (M 1%nat + n) + (M 2%nat * M 2%nat + M 3%nat * M 3%nat)) / 2) in *.
    assert (Hh0 : h <> 0) by lra.
    exists (mirror (vec4 0 (M 1%nat + n) (M 2%nat) (M 3%nat)) h), 0, 0.
    split; [|split; [pose proof (Rle_0_sqr eps) as Q; unfold Rsqr in Q; lra|]].
    + apply mirror_orthogonal; [exact Hh0|]. unfold len2, vec4. cbn [vsum]. unfold h. field.
    + intros i j Hi Hj. 
      match goal with |- ?l = conjugate _ ?b _ _ => 
        apply (mirror_back h Hh0 (vec4 0 (M 1%nat + n) (M 2%nat) (M 3%nat)) (sym (M 0%nat) (M 1%nat) (M 2%nat) (M 3%nat) (M 5%nat) (M 6%nat) (M 7%nat) (M 10%nat) (M 11%nat) (M 15%nat)) b) end.
      * unfold len2, vec4. cbn [vsum]. unfold h. field.
      * intros i' j' Hi' Hj'. apply (mirror_once h Hh0); [ring|unfold h; field|exact Eh|exact Hi'|exact Hj'].
      * exact Hi.
      * exact Hj.
  - apply Rnot_lt_le in L. exists (fun i j => if (i =? j)%nat then 1 else 0), (M 2%nat), (M 3%nat).
    pose proof (Rle_0_sqr (M 1%nat)) as A. pose proof (Rle_0_sqr (M 2%nat)) as B. pose proof (Rle_0_sqr (M 3%nat)) as C. unfold Rsqr in *.
    split; [exact eye_orthogonal|]. split.
    + assert (Hq : 0 <= M 1%nat * M 1%nat + (M 2%nat * M 2%nat + M 3%nat * M 3%nat)) by lra.
      pose proof (sqrt_sqrt _ Hq) as Hs. pose proof (sqrt_pos (M 1%nat * M 1%nat + (M 2%nat * M 2%nat + M 3%nat * M 3%nat))) as Hp.
      pose proof (Rmult_le_compat _ _ _ _ Hp Hp L L) as K. lra.
    + intros i j Hi Hj. symmetry. apply eye_conjugate; assumption.
Qed.

Lemma rotated_small e2 e3 w1 w2 h : 0 < h -> w1 * w1 + w2 * w2 = 2 * h -> 
  (e2 - (w1 * e2 + w2 * e3) / h * w1) * (e2 - (w1 * e2 + w2 * e3) / h * w1) + (e3 - (w1 * e2 + w2 * e3) / h * w2) * (e3 - (w1 * e2 + w2 * e3) / h * w2) = e2 * e2 + e3 * e3.
Proof.
  intros Hh E. set (s := (w1 * e2 + w2 * e3) / h). assert (Es : w1 * e2 + w2 * e3 = s * h) by (unfold s; field; lra).
  transitivity (e2 * e2 + e3 * e3 - 2 * s * (w1 * e2 + w2 * e3) + s * s * (w1 * w1 + w2 * w2)); [ring|]. rewrite Es, E. ring.
Qed.
Lemma square_le x y : x * x <= y * y -> 0 <= y -> Rabs x <= y.
Proof. intros H Hy. apply Rsqr_incr_0_var; [|exact Hy]. rewrite <- Rsqr_abs. exact H. Qed.
Lemma abs_square x y : Rabs x <= y -> x * x <= y * y.
Proof. intros H. change (Rsqr x <= Rsqr y). apply Rsqr_le_abs_1. eapply Rle_trans; [exact H|apply Rle_abs]. Qed.

Definition error_matrix (e2 e3 e7 : R) : nat -> nat -> R := sym 0 0 e2 e3 0 0 e7 0 0 0.
Lemma second_step_ok m0 m1 e2 e3 m5 m6 m7 m10 m11 m15 e : e2 * e2 + e3 * e3 <= e * e -> 0 <= e -> exists q f2 f3 f7,
  let '(n6, n10, n11, n15) := second_step m6 m7 m10 m11 m15 in
  orthogonal4 q /\ f2 * f2 + f3 * f3 <= e * e /\ Rabs f7 <= eps /\
  forall i j, (i < 4)%nat -> (j < 4)%nat ->
    sym m0 m1 e2 e3 m5 m6 m7 m10 m11 m15 i j = conjugate q (sym m0 m1 f2 f3 m5 n6 f7 n10 n11 n15) i j.
Proof.
  intros He Hep.
  assert (He0 : 0 < eps) by (unfold eps; apply Rinv_0_lt_compat; apply pow_lt; lra).
  assert (Ht : 0 <= m7 * m7) by (apply Rle_0_sqr).
  unfold second_step. cbv zeta. destruct (Rlt_dec eps _) as [L|L].
  - match goal with |- context [if Rlt_dec m6 0 then - ?s else ?s] => set (n := if Rlt_dec m6 0 then - s else s) end.
    destruct (householder_signs m6 _ n Ht L eq_refl) as [Hh [Eh En]].
    set (h := ((m6 + n) * (m6 + n) + m7 * m7) / 2) in *.
    assert (Hh0 : h <> 0) by lra.
    assert (E2h : (m6 + n) * (m6 + n) + m7 * m7 = 2 * h) by (unfold h; field).
    exists (mirror (vec4 0 0 (m6 + n) m7) h), (e2 - ((m6 + n) * e2 + m7 * e3) / h * (m6 + n)), (e3 - ((m6 + n) * e2 + m7 * e3) / h * m7), 0.
    split; [|split; [|split; [rewrite Rabs_R0; lra|]]].
    + apply mirror_orthogonal; [exact Hh0|]. unfold len2, vec4. cbn [vsum]. lra.
    + rewrite (rotated_small e2 e3 (m6 + n) m7 h Hh E2h). exact He.
    + apply (mirror_back h Hh0).
      * unfold len2, vec4. cbn [vsum]. lra.
      * apply (mirror_twice h Hh0); [ring|exact E2h|exact Eh].
  - apply Rnot_lt_le in L. exists (fun i j => if (i =? j)%nat then 1 else 0), e2, e3, m7.
    pose proof (Rle_0_sqr m6) as A. unfold Rsqr in *.
    split; [exact eye_orthogonal|]. split; [exact He|split].
    + apply (sqrt_small _ (m6 * m6)); [|exact A]. rewrite Rplus_comm. exact L.
    + intros i j Hi Hj. symmetry. apply eye_conjugate; assumption.
Qed.

Lemma sym_error m0 m1 e2 e3 m5 m6 e7 m10 m11 m15 i j : (i < 4)%nat -> (j < 4)%nat -> sym m0 m1 e2 e3 m5 m6 e7 m10 m11 m15 i j =
  tridiagonal (vec4 m0 m5 m10 m15) (vec3 m1 m6 m11) i j + error_matrix e2 e3 e7 i j.
Proof. intros Hi Hj. unfold sym, error_matrix, sym, arr16, rows4, tridiagonal, vec4, vec3. each4; cbn [Nat.eqb]; ring. Qed.
Lemma sym_at16 m i j : symmetric4 m -> (i < 4)%nat -> (j < 4)%nat ->
  sym (at16 m 0%nat) (at16 m 1%nat) (at16 m 2%nat) (at16 m 3%nat) (at16 m 5%nat) (at16 m 6%nat) (at16 m 7%nat) (at16 m 10%nat) (at16 m 11%nat) (at16 m 15%nat) i j = m i j.
Proof.
  intros S Hi Hj. unfold sym, at16, arr16, rows4, vec4. each4; cbn; try reflexivity; apply S; lia.
Qed.

Lemma error_small e2 e3 e7 i j : e2 * e2 + e3 * e3 <= eps * eps -> Rabs e7 <= eps -> (i < 4)%nat -> (j < 4)%nat -> Rabs (error_matrix e2 e3 e7 i j) <= eps.
Proof.
  intros H H7 Hi Hj.
  assert (He0 : 0 < eps) by (unfold eps; apply Rinv_0_lt_compat; apply pow_lt; lra).
  pose proof (Rle_0_sqr e2) as A. pose proof (Rle_0_sqr e3) as B. unfold Rsqr in *.
  assert (H2 : Rabs e2 <= eps) by (apply square_le; lra). assert (H3 : Rabs e3 <= eps) by (apply square_le; lra).
  unfold error_matrix, sym, arr16, rows4, vec4. each4; cbn; try assumption; rewrite Rabs_R0; lra.
Qed.

Lemma tridiagonalize_ok m : symmetric4 m -> exists q e,
  orthogonal4 q /\ symmetric4 e /\ (forall i j, (i < 4)%nat -> (j < 4)%nat -> Rabs (e i j) <= eps) /\
  (forall i j, (i < 4)%nat -> (j < 4)%nat -> (i <= S j)%nat -> (j <= S i)%nat -> e i j = 0) /\
  forall i j, (i < 4)%nat -> (j < 4)%nat -> 
    m i j = conjugate q (fun i j => tridiagonal (fst (c_tridiagonalize m)) (snd (c_tridiagonalize m)) i j + e i j) i j.
Proof.
  intros S. rewrite tridiagonalize_steps. cbv zeta.
  destruct (first_step_ok (at16 m)) as [q1 [e2 [e3 H]]].
  destruct (first_step (at16 m)) as [[[[[[m1 m5] m6] m7] m10] m11] m15]. destruct H as [O1 [B1 E1]].
  assert (He0 : 0 <= eps) by (unfold eps; apply Rlt_le, Rinv_0_lt_compat; apply pow_lt; lra).
  destruct (second_step_ok (at16 m 0%nat) m1 e2 e3 m5 m6 m7 m10 m11 m15 eps B1 He0) as [q2 [f2 [f3 [f7 H]]]].
  destruct (second_step m6 m7 m10 m11 m15) as [[[n6 n10] n11] n15]. destruct H as [O2 [B2 [B7 E2]]].
  exists (mul4 q1 q2), (error_matrix f2 f3 f7). split; [apply orthogonal_mul; assumption|]. split; [|split; [|split]].
  - intros i j Hi Hj. unfold error_matrix, sym, arr16, rows4, vec4. each4; reflexivity.
  - intros i j Hi Hj. apply error_small; assumption.
  - intros i j Hi Hj K1 K2. unfold error_matrix, sym, arr16, rows4, vec4. each4; try reflexivity; exfalso; lia.
  - intros i j Hi Hj. rewrite <- (sym_at16 m i j S Hi Hj), (E1 i j Hi Hj), (conjugate_ext _ _ _ i j E2), conjugate_mul.
    apply conjugate_ext. intros k l Hk Hl. cbn [fst snd]. apply sym_error; assumption.
Qed.

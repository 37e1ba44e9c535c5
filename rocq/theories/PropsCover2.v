(** C177: with many images the potential is that below a conducting cover. *)
From Coquelicot Require Import Coquelicot.
From Verif Require Import Base ModelExpr ModelField ModelGeom SpecField SpecPoly SpecMax SpecTile SpecCover PropsMax PropsCentre PropsCover ProofCover4.
Import ListNotations.
Open Scope R_scope.

(** At most one potential between the planes has given boundary values. *)
Theorem C177_unique : forall h phi c u v, 0 < h -> between h phi c u -> between h phi c v ->
  forall p, 0 < pz p < h -> u p = v p.
Proof. exact between_unique. Qed.
Print Assumptions C177_unique.

(** For pixels, polygons and covers at one height there is one. *)
Theorem C177_exists : forall h area s t, 0 < h -> below_cover h area s ->
  exists u, between h (tensor_entry (with_images 0 h s) t 0 []) (cover_voltage t s) u.
Proof. exact system_exists. Qed.
Print Assumptions C177_exists.

(** It is what System.electrical_potential returns with [n] images, up to: *)
Theorem C177_error : forall h area s t u p n, 0 < h -> below_cover h area s ->
  between h (tensor_entry (with_images 0 h s) t 0 []) (cover_voltage t s) u ->
  0 < pz p < h -> (1 <= n)%nat ->
  Rabs (tensor_entry (with_images n h s) t 0 [] p - u p) <=
    sum_over s (fun e => Rabs (voltage t e) * area e) * pz p / (8 * PI * h ^ 3 * INR n ^ 2).
Proof. exact system_error. Qed.
Print Assumptions C177_error.

(** and the first derivatives converge to those of [u]. *)
Theorem C177_field : forall h area s t u p k, 0 < h -> below_cover h area s ->
  between h (tensor_entry (with_images 0 h s) t 0 []) (cover_voltage t s) u ->
  0 < pz p < h -> (k < 3)%nat ->
  exists l : R, partial u k p l /\ is_lim_seq (fun n => tensor_entry (with_images n h s) t 1 [k] p) l.
Proof. exact system_field. Qed.
Print Assumptions C177_field.

(** a unit square at 3 V, an L at -1 V and a cover at height 50 at -2 V *)
Example ex_177 : let s := [Electrode "a" 3 0 (EPolygon [C144_square 0] 0 50); Electrode "b" (-1) 0 (EPolygon [ell] 0 50); Electrode "cover" (-2) 0 (ECover 50)] in
  let area := fun e => match egeom e with EPolygon [[_; _; _; _]] _ _ => 1 | EPolygon _ _ _ => 3 | _ => 0 end in
  below_cover 50 area s /\ cover_voltage TDc s = -2 /\ sum_over s (fun e => Rabs (voltage TDc e) * area e) = 6.
Proof.
  pose proof ex_176 as (Q & L & _). cbv zeta. split; [|split].
  - intros e [<-|[<-|[<-|[]]]]; [left; exact Q|left; exact L|right; split; reflexivity].
  - unfold cover_voltage, sum_over. cbn. ring.
  - unfold sum_over. cbn. rewrite (Rabs_right 3), (Rabs_left (-1)), (Rabs_left (-2)) by lra. ring.
Qed.

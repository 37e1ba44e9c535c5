(** The pseudopotential and the combined potential in floating point, for C183:
    system.py 218, 276-357 and utils.py 327-341 with a rounding after every
    operation.  The tensors are functions of their index list, as in
    ModelField. *)
From Coq Require Import String.
From Verif Require Import Base ModelUtils ModelField ModelFloat ModelFloatField.
Import ListNotations.
Open Scope R_scope.

(** utils.py 337-340: [-c[..., j[0]]-c[..., j[1]]], the sign change is exact *)
Definition fent_value (A : arith) (c : list R) (e : ent) : res R :=
  match e with
  | Sel i => match nth_error c i with Some x => Ok x | None => Raise IndexError end
  | Lap a b =>
      match nth_error c a, nth_error c b with
      | Some x, Some y => Ok (rnd A (- x - y))
      | _, _ => Raise IndexError
      end
  end.
(** utils.py 327-341, for one point *)
Definition fexpand_tensor (A : arith) (c : list R) : res (list R) :=
  match List.length c with
  | O => Raise TypeError
  | S m =>
      let order := (m / 2)%nat in
      match order with
      | O => match c with x :: _ => Ok [x] | [] => Raise IndexError end
      | 1%nat => Ok c
      | _ => match nth_error expand_map order with
             | None => Raise IndexError
             | Some em => collect (map (fent_value A c) em)
             end
      end
  end.
(** system.py 212-219 with [expand=True], for one point *)
Definition ftensor (A : arith) (s : list electrode) (x : p3) (order : nat) (t : vtyp) : res (list R) :=
  bind (felectrical_potential A s [x] order t) (fun pot =>
  bind (collect (map (fexpand_tensor A) pot)) (fun t =>
  match t with [r] => Ok r | _ => Raise IndexError end)).

(** [np.einsum(subscripts, p, q)] at one index: the sum over [j] of the
    products of the entries of two axes.  In which order and with how many
    roundings numpy adds is not documented, so this is an argument: it may
    differ from call to call and from entry to entry. *)
Definition einsum := string -> list nat -> (nat -> R) -> (nat -> R) -> R.

(** system.py 299-327; [a += b] rounds, and so does [2*a] *)
Definition fpseudo_tensor (A : arith) (es : einsum) (derivative : nat) (p : nat -> tensor) : option tensor :=
  match derivative with
  | 0%nat => Some (fun _ => es "ij,ij->i"%string [] (fun j => p 0%nat [j]) (fun j => p 0%nat [j]))
  | 1%nat => Some (fun i => match i with
      | [k] => rnd A (2 * es "ij,ijk->ik"%string [k] (fun j => p 0%nat [j]) (fun j => p 1%nat [j; k]))
      | _ => 0 end)
  | 2%nat => Some (fun i => match i with
      | [k; l] => rnd A (2 * rnd A (
            es "ijk,ijl->ikl"%string [k; l] (fun j => p 1%nat [j; k]) (fun j => p 1%nat [j; l])
          + es "ij,ijkl->ikl"%string [k; l] (fun j => p 0%nat [j]) (fun j => p 2%nat [j; k; l])))
      | _ => 0 end)
  | 3%nat => Some (fun i => match i with
      | [k; l; m] =>
          let a k l m := es "ij,ijklm->iklm"%string [k; l; m] (fun j => p 0%nat [j]) (fun j => p 3%nat [j; k; l; m]) in
          let b k l m := es "ijk,ijlm->iklm"%string [k; l; m] (fun j => p 1%nat [j; k]) (fun j => p 2%nat [j; l; m]) in
          rnd A (2 * rnd A (rnd A (rnd A (a k l m + b k l m) + b l k m) + b m l k))
      | _ => 0 end)
  | 4%nat => Some (fun i => match i with
      | [k; l; m; n] =>
          let a k l m n := es "ij,ijklmn->iklmn"%string [k; l; m; n] (fun j => p 0%nat [j]) (fun j => p 4%nat [j; k; l; m; n]) in
          let b k l m n := es "ijk,ijlmn->iklmn"%string [k; l; m; n] (fun j => p 1%nat [j; k]) (fun j => p 3%nat [j; l; m; n]) in
          let c k l m n := es "ijkl,ijmn->iklmn"%string [k; l; m; n] (fun j => p 2%nat [j; k; l]) (fun j => p 2%nat [j; m; n]) in
          rnd A (2 * rnd A (rnd A (rnd A (rnd A (rnd A (rnd A (rnd A (a k l m n
            + b k l m n) + b n l m k) + b m l k n) + b l k m n)
            + c k l m n) + c k n m l) + c k m l n))
      | _ => 0 end)
  | _ => None
  end.
(** system.py 292-298, for one point; [rf_coeff*] rounds *)
Definition fpseudo_potential (A : arith) (es : einsum) (rf_coeff : option R) (s : list electrode) (x : p3)
    (derivative : nat) : res tensor :=
  match rf_coeff with
  | None => Raise AttributeError
  | Some c =>
      bind (collect (map (fun i => ftensor A s x i TRf) (seq 1 (derivative + 1)))) (fun ts =>
      match fpseudo_tensor A es derivative (fun i idx => rnd A (c * tensor_of (nth i ts []) idx)) with
      | Some t => Ok t
      | None => Raise ValueError
      end)
  end.
(** system.py 346-357, for one point *)
Definition ftotal_potential (A : arith) (es : einsum) (rf_coeff : option R) (s : list electrode) (x : p3)
    (derivative : nat) (typ : string) : res tensor :=
  bind (ftensor A s x derivative TDc) (fun dc =>
  bind (fpseudo_potential A es rf_coeff s x derivative) (fun rf =>
  if String.eqb typ "tot" then Ok (fun i => rnd A (tensor_of dc i + rf i))
  else if String.eqb typ "dc" then Ok (tensor_of dc)
  else if String.eqb typ "rf" then Ok rf
  else Raise ValueError)).

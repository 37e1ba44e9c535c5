(** Order 5 of the transcribed polygon expressions; see ProofEdgeT. *)
From Verif Require Import Base ModelExpr ModelUtils ModelField SpecTensor SpecField
  ProofTensor ProofField ProofPixel ProofDeriv ProofSys ProofEdgeG ProofEdgeP ProofEdgeT.
Open Scope R_scope.
Lemma text5 i v1 v2 p : good v1 v2 p -> (i < 11)%nat ->
  edge_term 5 v1 v2 i p = cf v1 v2 (hd 0%nat (nmi 5 i)) * E v1 v2 (tl (nmi 5 i)) p.
Proof. intros Hz Hi. text_all i edge_expr5. Qed.

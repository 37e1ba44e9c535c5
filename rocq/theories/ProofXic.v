From Coq Require Import Ascii.
From Verif Require Import Base ModelExpr ModelField ModelGeom ModelTools SpecTools ProofTools ProofMove.
Open Scope R_scope.
Notation length := List.length.

Lemma rstrip_trimmed l : trimmed l -> rstrip l = l.
Proof. intros (r & c & -> & H). unfold rstrip. rewrite rev_app_distr. cbn [rev app dropwhile]. rewrite H. cbn [rev]. now rewrite rev_involutive. Qed.
Lemma dropwhile_app {A} (f : A -> bool) l c m : f c = false -> dropwhile f (l ++ c :: m) = dropwhile f l ++ c :: m \/ dropwhile f (l ++ c :: m) = c :: m /\ dropwhile f l = [].
Proof. intros H. induction l as [|a l IH]; cbn [app dropwhile]; [right; rewrite H; auto|]. destruct (f a); [exact IH|left; reflexivity]. Qed.
Lemma rstrip_head c l : is_space c = false -> exists r, rstrip (c :: l) = c :: r.
Proof.
  intros H. unfold rstrip. cbn [rev]. destruct (dropwhile_app is_space (rev l) c [] H) as [E|[E _]]; rewrite E; [rewrite rev_app_distr; cbn; eauto|cbn; eauto].
Qed.
Lemma rstrip_blank l : blank l -> rstrip l = [].
Proof.
  intros H. unfold rstrip. assert (E : forall m, Forall (fun c => is_space c = true) m -> dropwhile is_space m = []). { induction 1 as [|c m Hc _ IH]; [reflexivity|]. cbn. now rewrite Hc. }
  rewrite E; [reflexivity|]. apply Forall_rev, H.
Qed.
Lemma endswith_iff c l : endswith c l = true <-> ends_with c l.
Proof.
  unfold endswith, ends_with. split.
  - destruct (rev l) as [|d r] eqn:E; [discriminate|]. intros H. apply Ascii.eqb_eq in H. subst. exists (rev r). rewrite <- (rev_involutive l), E. reflexivity.
  - intros (r & ->). rewrite rev_app_distr. cbn. apply Ascii.eqb_refl.
Qed.
Definition words b : list (list (list ascii)) := tl (split (b_head b)) :: map split (b_middle b) ++ [split (b_last b)].
Lemma spells_space c l ws : is_space c = true -> spells l ws -> spells (c :: l) ws.
Proof.
  intros H S. inversion S as [s B|s w r ws' B N F E S']; subst; [constructor; constructor; assumption|]. exact (spells_word (c :: s) w r ws' (Forall_cons _ H B) N F E S').
Qed.
Lemma split_spells_gen l : forall w, Forall (fun c => is_space c = false) w -> spells (w ++ l) (split_words w l).
Proof.
  induction l as [|c l IH]; intros w F; cbn [split_words].
  - destruct w as [|d w]; [constructor; constructor|]. apply (spells_word [] (d :: w) [] []); [constructor|discriminate|exact F|now left|constructor; constructor].
  - destruct (is_space c) eqn:E.
    + destruct w as [|d w]; cbn [app]; [apply spells_space; [exact E|apply (IH []); constructor]|].
      apply (spells_word [] (d :: w) (c :: l)); [constructor|discriminate|exact F|right; eauto|]. apply spells_space; [exact E|apply (IH []); constructor].
    + replace (w ++ c :: l) with ((w ++ [c]) ++ l) by (rewrite <- app_assoc; reflexivity). apply IH. apply Forall_app. split; [exact F|repeat constructor; exact E].
Qed.
Lemma split_spells l : spells l (split l).
Proof. apply (split_spells_gen l []). constructor. Qed.
Lemma split_skip s l : blank s -> split (s ++ l) = split l.
Proof. unfold split. induction 1 as [|c s H _ IH]; [reflexivity|]. cbn [app split_words]. now rewrite H. Qed.
Lemma split_word w l : Forall (fun c => is_space c = false) w -> forall w0, split_words w0 (w ++ l) = split_words (w0 ++ w) l.
Proof.
  induction 1 as [|c w H _ IH]; intros w0; cbn [app split_words]; [now rewrite app_nil_r|]. rewrite H, IH, <- app_assoc. reflexivity.
Qed.
Lemma spells_split l ws : spells l ws -> split l = ws.
Proof.
  induction 1 as [s B|s w l ws B N F E S IH].
  - rewrite <- (app_nil_r s). now rewrite split_skip.
  - rewrite split_skip by exact B. unfold split. rewrite split_word by exact F. cbn [app]. destruct w as [|d w]; [contradiction|]. destruct E as [->|(c & r & -> & Hc)]; cbn [split_words].
    + f_equal. exact IH.
    + rewrite Hc. f_equal. unfold split in IH. cbn [split_words] in IH. now rewrite Hc in IH.
Qed.
Lemma words_spec b ws : block_words b ws -> ws = words b.
Proof.
  intros (p & h & m & l & H & M & L & ->). unfold words. rewrite (spells_split _ _ H), (spells_split _ _ L). cbn [tl]. f_equal. f_equal. clear -M. induction M as [|x y m ys H _ IH]; [reflexivity|]. cbn [map]. now rewrite (spells_split _ _ H), IH.
Qed.
Lemma words_exist b : good_block b -> block_words b (words b).
Proof.
  intros ((Hh & Th) & _). destruct Hh as (r & Er). assert (S := split_spells (b_head b)). destruct (split (b_head b)) as [|p h] eqn:E.
  - exfalso. rewrite Er in E. unfold split in E. cbn [split_words is_space] in E. change (is_space "P") with false in E. cbn [app] in E. revert E. generalize ["P"%char] (eq_refl : 1%nat = length ["P"%char]). clear.
    intros w Hw. assert (w <> []) as N by (intros ->; discriminate). clear Hw. revert w N. induction r as [|c r IH]; intros w N; cbn [split_words]; [destruct w; [contradiction|discriminate]|].
    destruct (is_space c); [destruct w; [contradiction|discriminate]|]. apply IH. intros K. apply app_eq_nil in K. destruct K. discriminate.
  - exists p, h, (map split (b_middle b)), (split (b_last b)). split; [exact S|]. split; [generalize (b_middle b); intros m; induction m; constructor; [apply split_spells|assumption]|]. split; [apply split_spells|]. unfold words. now rewrite E.
Qed.
Lemma to_array_spec float p out : to_array float false p = Ok out -> coordinates float p out.
Proof.
  unfold to_array. destruct (collect_res _) as [a|] eqn:E; [|discriminate]. cbn [bind]. destruct (forallb _ a) eqn:G; [|discriminate]. intros [= <-]. apply collect_forall2 in E. split.
  - clear G. induction E as [|w r p a E _ IH]; cbn [map]; constructor; [|exact IH]. apply collect_forall2 in E. clear IH. induction E as [|x y w r E _ IH]; cbn [map]; constructor; eauto.
  - exists (length (hd [] a)). rewrite forallb_forall in G. apply Forall_forall. intros r H. apply in_map_iff in H as (r0 & <- & H). rewrite map_length. apply Nat.eqb_eq, G, H.
Qed.
Lemma middle_step float ms rest es : Forall (fun l => starts_with " " l /\ trimmed l /\ ~ ends_with ";" l) ms -> forall q,
  xic_loop float false (ms ++ rest) (Some q) es = xic_loop float false rest (Some (q ++ map split ms)) es.
Proof.
  induction 1 as [|l ms ((r & ->) & T & E) _ IH]; intros q; cbn [app map]; [now rewrite app_nil_r|]. cbn [xic_loop]. rewrite rstrip_trimmed by exact T.
  cbn [Ascii.eqb Bool.eqb]. assert (endswith ";" (" "%char :: r) = false) as ->. { destruct (endswith _ _) eqn:G; [|reflexivity]. apply endswith_iff in G. contradiction. }
  cbn [negb]. rewrite IH, <- app_assoc. reflexivity.
Qed.
Lemma block_step float b rest p es : good_block b ->
  xic_loop float false (block_lines b ++ rest) p es =
  bind (to_array float false (words b)) (fun e => xic_loop float false rest (Some (words b)) (es ++ [e])).
Proof.
  intros ((Hh & Th) & Hm & Hl). unfold block_lines. cbn [app xic_loop]. rewrite rstrip_trimmed by exact Th. unfold words. destruct b as [h m l]. cbn [b_head b_middle b_last] in *. destruct Hh as (r & ->). destruct Hl as (r' & ->). cbn [Ascii.eqb Bool.eqb].
  rewrite <- app_assoc. rewrite middle_step by exact Hm. cbn [app xic_loop]. 
  assert (T : trimmed (" "%char :: r' ++ [";"%char])) by (exists (" "%char :: r'), ";"%char; split; reflexivity). rewrite rstrip_trimmed by exact T. cbn [Ascii.eqb Bool.eqb].
  assert (endswith ";" (" "%char :: r' ++ [";"%char]) = true) as -> by (apply endswith_iff; exists (" "%char :: r'); reflexivity). cbn [negb].
  change (" "%char :: r' ++ [";"%char]) with ((" "%char :: r') ++ [";"%char]). rewrite removelast_last. reflexivity.
Qed.
Lemma file_spec float ls bs : file ls bs -> forall p es out, xic_loop float false ls p es = Ok out ->
  exists out', out = es ++ out' /\ Forall2 (fun b o => exists ws, block_words b ws /\ coordinates float ws o) bs out'.
Proof.
  induction 1 as [|l ls bs (c & r & -> & Hc & HP) _ IH|b ls bs G _ IH]; intros p es out.
  - intros [= <-]. exists []. split; [now rewrite app_nil_r|constructor].
  - cbn [xic_loop]. destruct (rstrip_head c r Hc) as [r' ->]. destruct (Ascii.eqb_spec c "P"); [contradiction|]. destruct (Ascii.eqb_spec c " ") as [->|]; [discriminate|]. apply IH.
  - rewrite block_step by exact G. destruct (to_array _ _ _) as [e|] eqn:E; [|discriminate]. cbn [bind]. intros H. destruct (IH _ _ _ H) as (out' & -> & F). exists (e :: out'). split; [now rewrite <- app_assoc|]. constructor; [exists (words b); split; [apply words_exist, G|apply to_array_spec, E]|exact F].
Qed.
(** the words are numbers and all vertices of a polygon have as many *)
Lemma to_array_ok float p n : Forall (fun w => length w = n /\ Forall (fun s => exists u, float s = Ok u) w) p -> exists out, to_array float false p = Ok out.
Proof.
  intros H. unfold to_array. assert (E : exists a, collect_res (map (fun i => collect_res (map float i)) p) = Ok a /\ Forall (fun r => length r = n) a).
  { induction H as [|w p [L F] _ (a & E & G)]; [exists []; split; [reflexivity|constructor]|].
    assert (E' : exists r, collect_res (map float w) = Ok r /\ length r = length w).
    { clear -F. induction F as [|s w (u & Hu) _ (r & E & L)]; [exists []; split; reflexivity|]. exists (u :: r). cbn [map collect_res]. rewrite Hu. cbn [bind]. rewrite E. cbn. now rewrite L. }
    destruct E' as (r & E' & L'). exists (r :: a). cbn [map collect_res]. rewrite E'. cbn [bind]. rewrite E. cbn [bind]. split; [reflexivity|constructor; [congruence|exact G]]. }
  destruct E as (a & -> & G). cbn [bind]. assert (forallb (fun r => (length r =? length (hd [] a))%nat) a = true) as ->; [|eauto]. apply forallb_forall. intros r Hr. rewrite Forall_forall in G. apply Nat.eqb_eq. rewrite (G r Hr). destruct a as [|r0 a]; [destruct Hr|]. cbn [hd]. symmetry. apply G. now left.
Qed.
Lemma file_ok float ls bs : file ls bs -> Forall (fun b => exists n ws, block_words b ws /\ Forall (fun w => length w = n /\ Forall (fun s => exists u, float s = Ok u) w) ws) bs ->
  forall p es, exists out, xic_loop float false ls p es = Ok out.
Proof.
  induction 1 as [|l ls bs (c & r & -> & Hc & HP) _ IH|b ls bs G _ IH]; intros F p es.
  - cbn. eauto.
  - cbn [xic_loop]. destruct (rstrip_head c r Hc) as [r' ->]. destruct (Ascii.eqb_spec c "P"); [contradiction|]. destruct (Ascii.eqb_spec c " ") as [->|]; [discriminate|]. apply IH, F.
  - inversion F as [|? ? (n & ws & Hw & Hn) F']; subst. apply words_spec in Hw. subst ws. rewrite block_step by exact G. destruct (to_array_ok float _ n Hn) as [o ->]. cbn [bind]. apply IH, F'.
Qed.
Lemma blank_raises float py3 l rest p es : blank l -> xic_loop float py3 (l :: rest) p es = Raise IndexError.
Proof. intros H. cbn [xic_loop]. now rewrite rstrip_blank. Qed.
Lemma py3_raises float ls bs : file ls bs -> bs <> [] -> xic_to_list float true ls = Raise TypeError.
Proof.
  unfold xic_to_list. generalize (@nil (list (list R))). generalize (@None (list (list (list ascii)))). intros p es H. revert p es.
  induction H as [|l ls bs (c & r & -> & Hc & HP) _ IH|b ls bs G _ IH]; intros p es Hb; [contradiction| |].
  - cbn [xic_loop]. destruct (rstrip_head c r Hc) as [r' ->]. destruct (Ascii.eqb_spec c "P"); [contradiction|]. destruct (Ascii.eqb_spec c " ") as [->|]; [discriminate|]. apply IH, Hb.
  - clear IH Hb. destruct G as ((Hh & Th) & Hm & Hl). unfold block_lines. cbn [app xic_loop]. rewrite rstrip_trimmed by exact Th. destruct b as [h m l]. cbn [b_head b_middle b_last] in *. destruct Hh as (r & ->). destruct Hl as (r' & ->). cbn [Ascii.eqb Bool.eqb].
    rewrite <- app_assoc. match goal with |- xic_loop _ _ _ (Some ?q) _ = _ => generalize q end. induction Hm as [|x ms ((y & ->) & T & E) _ IH]; intros q; cbn [app xic_loop].
    + assert (T : trimmed (" "%char :: r' ++ [";"%char])) by (exists (" "%char :: r'), ";"%char; split; reflexivity). rewrite rstrip_trimmed by exact T. cbn [Ascii.eqb Bool.eqb].
      assert (endswith ";" (" "%char :: r' ++ [";"%char]) = true) as -> by (apply endswith_iff; exists (" "%char :: r'); reflexivity). reflexivity.
    + rewrite rstrip_trimmed by exact T. cbn [Ascii.eqb Bool.eqb]. assert (endswith ";" (" "%char :: y) = false) as ->. { destruct (endswith _ _) eqn:G; [|reflexivity]. apply endswith_iff in G. contradiction. }
      cbn [negb]. apply IH.
Qed.
Lemma polygons float ls bs out : file ls bs -> xic_to_list float false ls = Ok out ->
  Forall2 (fun b o => exists ws, block_words b ws /\ coordinates float ws o) bs out.
Proof. intros F E. destruct (file_spec float ls bs F None [] out E) as (o & -> & G). exact G. Qed.
Lemma blank_fails float py3 pre bs line rest : file pre bs -> (bs <> [] -> py3 = false) ->
  Forall (fun b => exists n ws, block_words b ws /\ Forall (fun w => length w = n /\ Forall (fun s => exists u, float s = Ok u) w) ws) bs ->
  blank line -> xic_to_list float py3 (pre ++ line :: rest) = Raise IndexError.
Proof.
  intros F P W B. unfold xic_to_list. generalize (@None (list (list (list ascii)))) (@nil (list (list R))). intros p es. revert p es P W.
  induction F as [|l ls bs (c & r & -> & Hc & HP) _ IH|b ls bs G _ IH]; intros p es P W.
  - now apply blank_raises.
  - cbn [app xic_loop]. destruct (rstrip_head c r Hc) as [r' ->]. destruct (Ascii.eqb_spec c "P"); [contradiction|]. destruct (Ascii.eqb_spec c " ") as [->|]; [discriminate|]. now apply IH.
  - rewrite (P ltac:(discriminate)) in *. inversion W as [|? ? (n & ws & Hw & Hn) W']; subst. apply words_spec in Hw. subst ws. rewrite <- app_assoc, block_step by exact G. destruct (to_array_ok float _ n Hn) as [o ->]. cbn [bind]. now apply IH.
Qed.

(** The same for the circuits between confidential and anonymous records. *)
From Coq Require Import List ZArith NArith Bool Lia ZifyBool ZifyNat ZifyN.
From Verif Require Import Base Field PField Power UtilsModel TurboModel RescueModel MixModel AxfrModel NoteModel FoldModel SimModel AfoldModel InspModel ShapeProofs ShapeFold.
Import ListNotations.

Section ShapeI.
Context (F K : PField) (P : rescue_instance F) (e : N).
Local Open Scope F_scope.
Notation sh := (sh F). Notation rsh := (rsh F).
Notation sv_like := (sv_like F).
Lemma rsh_panic1 {A A'} (m' : CR F A') (R : A -> A' -> Prop) : rsh (fun _ => Panic) m' R.
Proof. intros ? ? ? ? ? ? _ H. discriminate H. Qed.
Lemma rsh_panic2 {A A'} (m : CR F A) (R : A -> A' -> Prop) : rsh m (fun _ => Panic) R.
Proof. intros ? ? ? ? ? ? _ _ H. discriminate H. Qed.
Lemma rsh_bounded_loop S v v' is_ : forall n, rsh (bounded_loop F S v is_ n) (bounded_loop F S v' is_ n) eq.
Proof.
  induction is_ as [|i is_ IH]; intros n; cbn [bounded_loop]; [now apply rsh_ret|].
  destruct (Nat.eqb _ 0).
  - eapply rsh_bind; [apply IH|]. intros r ? <-. now apply rsh_ret.
  - cbv zeta. eapply rsh_bind; [apply rsh_require|]. intros ? ? _. eapply rsh_bind.
    { apply rsh_lift. eapply sh_bind; [apply sh_new|]. intros o ? <-. eapply sh_bind; [apply sh_range|]. intros b ? <-. now apply (sh_ret _ _ _ eq). }
    intros ob ? <-. eapply rsh_bind; [apply IH|]. intros r ? <-. now apply rsh_ret.
Qed.
Lemma rsh_bounded S v v' n : rsh (alloc_witness_bounded_total_bits S v n) (alloc_witness_bounded_total_bits S v' n) (wit_like F).
Proof.
  unfold alloc_witness_bounded_total_bits. eapply rsh_bind; [apply rsh_require|]. intros ? ? _.
  eapply rsh_bind; [apply rsh_bounded_loop|]. intros r ? <-. apply rsh_ret. now split.
Qed.
Definition iv_like (v v' : insp_v F) : Prop :=
  sv_like (i_x F v) (i_x F v') /\ sv_like (i_y F v) (i_y F v') /\ sv_like (i_a F v) (i_a F v') /\ sv_like (i_b F v) (i_b F v') /\
  i_comm F v = i_comm F v' /\ i_r F v = i_r F v' /\ sv_like (i_beta F v) (i_beta F v') /\ sv_like (i_lambda F v) (i_lambda F v') /\
  sv_like (i_bl F v) (i_bl F v') /\ sv_like (i_resp F v) (i_resp F v').
Lemma rsh_alloc x y a b cm r be la re x' y' a' b' cm' r' be' la' re' :
  rsh (insp_alloc F K x y a b cm r be la re) (insp_alloc F K x' y' a' b' cm' r' be' la' re') iv_like.
Proof.
  unfold insp_alloc. do 2 (eapply rsh_bind; [apply rsh_bounded|]; intros ? ? [? _]).
  do 2 (eapply rsh_bind; [apply rsh_witness|]; intros ? ? [? _]). do 2 (eapply rsh_bind; [apply rsh_lift, sh_new|]; intros ? ? ?).
  do 4 (eapply rsh_bind; [apply rsh_lift, sh_input|]; intros ? ? ?). apply rsh_ret. repeat split; assumption.
Qed.
Lemma sh_rcompress l : sh (rcompress_cs F l) (rcompress_cs F l) eq.
Proof.
  apply sh_map1. intro ch. unfold rcompress_chunk. eapply sh_bind; [apply sh_lc|]. intros o ? <-.
  destruct (Nat.eqb _ 5); [apply sh_lc|now apply sh_ret].
Qed.
Lemma rsh_open v v' : iv_like v v' -> rsh (insp_open F P e v) (insp_open F P e v') eq.
Proof.
  intros (X & Y & A & B & CM & R & _). unfold insp_open. rewrite X, Y, A, B, CM, R.
  eapply rsh_bind; [apply rsh_lift, sh_rcompress|]. intros cl ? <-.
  destruct cl as [|c0 [|c1 [|c2 [|c3 [|c4 cl]]]]]; [apply rsh_panic1..|].
  eapply rsh_bind; [apply rsh_lift, sh_hash|]. intros ? ? <-. eapply rsh_bind; [apply rsh_lift, sh_hash|]. intros ? ? <-. apply rsh_lift, sh_equal.
Qed.
Lemma rsh_insp_equation v v' : iv_like v v' -> rsh (insp_equation F v) (insp_equation F v') eq.
Proof.
  intros (X & Y & A & B & CM & R & BE & LA & BL & RE). unfold insp_equation.
  eapply rsh_bind; [apply rsh_lift, sh_var_mul; assumption|]. intros m0 m0' M0.
  eapply rsh_bind; [apply rsh_lift, sh_var_mul; assumption|]. intros m1 m1' M1.
  eapply rsh_bind; [apply rsh_lift, sh_var_mul; assumption|]. intros m2 m2' M2.
  eapply rsh_bind; [apply rsh_lift, sh_mul_add; eassumption|]. intros m3 m3' M3.
  eapply rsh_bind; [apply rsh_lift, sh_mul_add; eassumption|]. intros m4 m4' M4.
  eapply rsh_bind; [apply rsh_var_sub; assumption|]. intros r r' R'.
  eapply rsh_bind; [apply rsh_mul_sub; eassumption|]. intros d d' D. now apply rsh_enforce.
Qed.
Lemma sh_number v v' : sv_like v v' -> sh (insp_number F v) (insp_number F v') eq.
Proof. intros E. unfold insp_number. rewrite E. eapply sh_bind; [apply sh_lc|]. intros ? ? <-. apply sh_lc. Qed.
Lemma sh_match v v' am ty : iv_like v v' -> sh (insp_match F v am ty) (insp_match F v' am ty) eq.
Proof.
  intros (X & Y & _). unfold insp_match. eapply sh_bind; [apply sh_number, X|]. intros ? ? <-. eapply sh_bind; [apply sh_number, Y|]. intros ? ? <-.
  eapply sh_bind; [apply sh_equal|]. intros ? ? _. apply sh_equal.
Qed.
Lemma rsh_insp_body (w w' : insp_witness F K) am ty : rsh (insp_body F K P e w am ty) (insp_body F K P e w' am ty) eq.
Proof.
  unfold insp_body.
  destruct (iw_data w) as [|[x a] [|[y b] d]]; [apply rsh_panic1..|].
  destruct (two_responses K (iw_resp w) _) as [resp| |]; [|apply rsh_panic1..].
  destruct (iw_data w') as [|[x' a'] [|[y' b'] d']]; [apply rsh_panic2..|].
  destruct (two_responses K (iw_resp w') _) as [resp'| |]; [|apply rsh_panic2..].
  eapply rsh_bind; [apply rsh_alloc|]. intros v v' V. eapply rsh_bind; [now apply rsh_open|]. intros ? ? _.
  eapply rsh_bind; [now apply rsh_insp_equation|]. intros ? ? _. eapply rsh_bind; [now apply rsh_lift, sh_match|]. intros ? ? _.
  destruct V as (_ & _ & _ & _ & CM & _ & BE & LA & BL & RE). apply rsh_ret. now rewrite CM, BE, LA, BL, RE.
Qed.
Lemma sh_publish l : sh (publish F l) (publish F l) eq.
Proof. unfold publish. eapply sh_bind; [apply sh_map1; intro; apply sh_push|]. intros ? ? _. now apply sh_ret. Qed.
Lemma rsh_from am ty bl pk w am' ty' bl' pk' w' : rsh (bar_to_abar_cs F K P e am ty bl pk w) (bar_to_abar_cs F K P e am' ty' bl' pk' w') eq.
Proof.
  unfold bar_to_abar_cs. do 3 (eapply rsh_bind; [apply rsh_lift, sh_new|]; intros ? ? <-). eapply rsh_bind; [apply rsh_lift, sh_new_pk|]. intros ? ? <-.
  eapply rsh_bind; [apply rsh_insp_body|]. intros ? ? <-. eapply rsh_bind; [apply rsh_lift, sh_commit|]. intros ? ? <-. apply rsh_lift, sh_publish.
Qed.
Lemma rsh_to fold fold' p p' k k' w w' : length (p_path F p) = length (p_path F p') -> (forall pk sk, rsh (fold pk sk) (fold' pk sk) eq) ->
  rsh (abar_to_bar_cs F K P e fold p k w) (abar_to_bar_cs F K P e fold' p' k' w') eq.
Proof.
  intros L Hf. unfold abar_to_bar_cs. eapply rsh_bind; [apply rsh_lift, sh_payer, L|]. intros v ? <-.
  eapply rsh_bind; [apply rsh_lift, sh_new_pk|]. intros ? ? <-. eapply rsh_bind; [apply rsh_lift, sh_new_sk|]. intros ? ? <-.
  eapply rsh_bind; [apply rsh_lift, sh_commit|]. intros ? ? <-. eapply rsh_bind; [apply rsh_lift, sh_lc|]. intros ? ? <-.
  eapply rsh_bind; [apply rsh_lift, sh_nullify|]. intros ? ? <-. eapply rsh_bind; [apply rsh_lift, sh_root|]. intros ? ? <-.
  eapply rsh_bind; [apply rsh_insp_body|]. intros ? ? <-. eapply rsh_bind; [apply rsh_lift, sh_publish|]. intros ? ? _. apply Hf.
Qed.
End ShapeI.

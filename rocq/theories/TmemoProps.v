(** C50: what a tracer's checks of a tracing memo establish. *)
From Coq Require Import List NArith ZArith Bool Lia ZifyBool ZifyNat ZifyN Field Ring.
From Verif Require Import Base Field UtilsModel XfrModel XfrSpec XfrProofs SigmaModel SigmaProofs NoteModel KeyModel HybModel RecordModel.
Import ListNotations.
Local Open Scope N_scope.

(** [c] is an ElGamal encryption of the scalar [x] over the base [B] that the
    secret key [sk] opens: its second half is [x] times the base plus [sk] times
    its first half. *)
Definition holds {F : Field} {G : Mod F} (B : G) (sk : F) (c : G * G) (x : F) : Prop :=
  snd c = madd (smul x B) (smul sk (fst c)).

Section Opening.
Context {F : Field} {G : Mod F}.
Add Field Ftm : (f_th F).
Lemma partial_iff (P : G) sk (c : G * G) x : elgamal_partial_decrypt c sk = smul x P <-> holds P sk c x.
Proof.
  unfold elgamal_partial_decrypt, holds. split; intros Q.
  - rewrite <- Q. module_eq.
  - rewrite Q. module_eq.
Qed.
Lemma holds_unique (P : G) sk (c : G * G) x y : P <> m0 -> holds P sk c x -> holds P sk c y -> x = y.
Proof.
  intros NP Hx Hy. apply partial_iff in Hx, Hy. rewrite Hx in Hy.
  assert (Y : smul (fsub x y) P = m0) by (transitivity (msub (smul x P) (smul y P)); [module_eq|now apply msub_0]).
  destruct (smul_eq_0 _ _ Y) as [Z|Z]; [now apply (fsub_0 F)|contradiction].
Qed.
End Opening.

Section Checks.
Context (H : hsuite) (E : pgroup) (as_scalar : N -> PF E).
Context {BF : Field} {BG : Mod BF} (BB : BG).
Add Field Ftmp : (f_th (PF E)).
Local Notation tmemo := (tmemo E (BG := BG)).
Local Notation B := (gB E).

(** The amount check passes exactly for the amount whose two 32-bit halves the memo
    encrypts; a memo without an amount fails it. *)
Theorem C50_amount_check : forall (m : tmemo) sk v,
  verify_amount E m sk v = Ok tt <->
  exists lo hi, tm_amount E m = Some (lo, hi) /\ holds B sk lo (fofN (v mod 2 ^ 32)) /\ holds B sk hi (fofN (v / 2 ^ 32)).
Proof.
  intros m sk v. unfold verify_amount. rewrite u64_pair_spec. destruct (tm_amount E m) as [[cl ch]|]; [|split; [discriminate|intros (? & ? & Q & _); discriminate]].
  destruct (meqb_spec (smul (fofN (v mod 2 ^ 32)) B) (elgamal_partial_decrypt cl sk)) as [e1|n1];
  destruct (meqb_spec (smul (fofN (v / 2 ^ 32)) B) (elgamal_partial_decrypt ch sk)) as [e2|n2]; cbn [negb orb]; (split; [try discriminate|]).
  - intros _. exists cl, ch. split; [reflexivity|]. split; apply partial_iff; now symmetry.
  - reflexivity.
  - intros (l & h & Q & _ & K). assert (ch = h) as -> by congruence. apply partial_iff in K. now symmetry in K.
  - intros (l & h & Q & K & _). assert (cl = l) as -> by congruence. apply partial_iff in K. now symmetry in K.
  - intros (l & h & Q & K & _). assert (cl = l) as -> by congruence. apply partial_iff in K. now symmetry in K.
Qed.
(** The type check passes exactly for the type the memo encrypts. *)
Theorem C50_type_check : forall (m : tmemo) sk t,
  verify_asset_type E as_scalar m sk t = Ok tt <-> exists c, tm_type E m = Some c /\ holds B sk c (as_scalar t).
Proof.
  intros m sk t. unfold verify_asset_type. destruct (tm_type E m) as [c|]; [|split; [discriminate|intros (? & Q & _); discriminate]].
  destruct (meqb_spec (elgamal_partial_decrypt c sk) (smul (as_scalar t) B)) as [e|n]; (split; [try discriminate|]).
  - intros _. exists c. split; [reflexivity|]. now apply partial_iff.
  - reflexivity.
  - intros (c' & Q & K). assert (c = c') as -> by congruence. now apply partial_iff in K.
Qed.
(** Searching a list of candidate types returns the first one the memo encrypts. *)
Theorem C50_type_search : forall (m : tmemo) sk l t,
  extract_asset_type E as_scalar m sk l = Ok t <->
  exists c before after, tm_type E m = Some c /\ l = before ++ t :: after /\ holds B sk c (as_scalar t) /\
    Forall (fun u => ~ holds B sk c (as_scalar u)) before.
Proof.
  intros m sk l t. replace (extract_asset_type E as_scalar m sk l) with (scan_types E as_scalar m sk l) by (destruct l; reflexivity).
  induction l as [|u l IH]; cbn [scan_types].
  { split; [discriminate|]. intros (c & b & a & _ & Q & _). destruct b; discriminate. }
  pose proof (C50_type_check m sk u) as V. destruct (verify_asset_type E as_scalar m sk u) as [[]| |] eqn:Ev.
  - destruct (proj1 V eq_refl) as (c & Ec & K). split.
    + intros Q. apply Ok_inj in Q. subst u. exists c, [], l. repeat split; auto.
    + intros (c' & b & a & Ec' & Q & _ & Fb). destruct b as [|x b]; injection Q as -> ->; [reflexivity|]. inversion Fb as [|? ? Nx _]; subst. assert (c = c') as -> by congruence. contradiction.
  - rewrite IH. split.
    + intros (c & b & a & Ec & -> & K & Fb). exists c, (u :: b), a. repeat split; auto. constructor; [|exact Fb]. intros Ku. assert (Q : Err = Ok tt) by (apply V; eauto). discriminate.
    + intros (c & b & a & Ec & Q & K & Fb). destruct b as [|x b]; injection Q as -> ->.
      * assert (Q : Err = Ok tt) by (apply V; eauto). discriminate.
      * inversion Fb; subst. exists c, b, a. auto.
  - rewrite IH. split.
    + intros (c & b & a & Ec & -> & K & Fb). exists c, (u :: b), a. repeat split; auto. constructor; [|exact Fb]. intros Ku. assert (Q : Panic = Ok tt) by (apply V; eauto). discriminate.
    + intros (c & b & a & Ec & Q & K & Fb). destruct b as [|x b]; injection Q as -> ->.
      * assert (Q : Panic = Ok tt) by (apply V; eauto). discriminate.
      * inversion Fb; subst. exists c, b, a. auto.
Qed.
(** So a memo the library makes for a type gives that type back, from any list of
    candidates that contains it, to the holder of the key, when no other candidate
    is the same scalar. *)
Theorem C50_type_found : B <> m0 ->
  forall e k ai t b attrs sk l, ek_rec E k = smul sk B -> In t l -> (forall u, In u l -> as_scalar u = as_scalar t -> u = t) ->
  extract_asset_type E as_scalar (tm_new H E as_scalar (BG := BG) e k ai (Some (t, b)) attrs) sk l = Ok t.
Proof.
  intros NB e k ai t b attrs sk l Ek Hin Inj. apply C50_type_search.
  assert (K : holds B sk (enc_rec E k (as_scalar t) b) (as_scalar t)).
  { unfold holds, enc_rec, elgamal_encrypt. cbn [fst snd]. rewrite Ek. module_eq. }
  assert (S : exists p q, l = p ++ t :: q /\ ~ In t p).
  { clear -Hin. induction l as [|u l IH]; [destruct Hin|]. destruct (N.eq_dec u t) as [->|n].
    - exists [], l. split; [reflexivity|intros []].
    - destruct Hin as [Q|Hin]; [contradiction|]. destruct (IH Hin) as (p & q & -> & Np). exists (u :: p), q. split; [reflexivity|]. intros [Q|Q]; contradiction. }
  destruct S as (p & q & -> & Np). exists (enc_rec E k (as_scalar t) b), p, q. repeat split; auto.
  apply Forall_forall. intros u Hu Ku. apply Np. rewrite <- (Inj u); [exact Hu|apply in_or_app; now left|]. exact (holds_unique _ _ _ _ _ NB Ku K).
Qed.
(** The attribute check answers, position by position, whether the memo encrypts the
    expected attribute; it fails when the numbers of attributes differ. *)
Theorem C50_attribute_check : forall (m : tmemo) sk l bs,
  verify_identity_attributes E BB m sk l = Ok bs <->
  length (tm_attrs E m) = length l /\ length bs = length l /\
  forall i c a, nth_error (tm_attrs E m) i = Some c -> nth_error l i = Some a ->
    exists ok, nth_error bs i = Some ok /\ (ok = true <-> holds BB sk c (fofN a)).
Proof.
  intros m sk l bs. unfold verify_identity_attributes. destruct (Nat.eqb_spec (length (tm_attrs E m)) (length l)) as [El|Nl]; cbn [negb].
  2:{ split; [discriminate|]. intros [Q _]. contradiction. }
  revert bs. generalize dependent l. generalize (tm_attrs E m). intros cs. induction cs as [|c cs IH]; intros [|a l] El bs; try discriminate.
  - cbn [combine map]. split.
    + intros Q. apply Ok_inj in Q. subst bs. split; [reflexivity|]. split; [reflexivity|]. intros [|i]; discriminate.
    + intros (_ & L & _). destruct bs; [reflexivity|discriminate].
  - cbn [combine map fst snd]. assert (El' : length cs = length l) by (cbn in El; lia). split.
    + intros Q. apply Ok_inj in Q. subst bs. destruct (proj1 (IH l El' _) eq_refl) as (_ & L & R). split; [exact El|]. split; [cbn; now rewrite L|].
      intros [|i] c' a' Hc Ha; [|exact (R i c' a' Hc Ha)]. injection Hc as ->. injection Ha as ->. eexists. split; [reflexivity|].
      rewrite <- partial_iff. destruct (meqb_spec (elgamal_partial_decrypt c' sk) (smul (fofN a') BB)); split; intros; auto; discriminate.
    + intros (_ & L & R). destruct bs as [|b bs]; [discriminate|]. destruct (R 0%nat c a eq_refl eq_refl) as (ok & Q & Ho). injection Q as <-.
      assert (G : Ok (map (fun ca => meqb (elgamal_partial_decrypt (fst ca) sk) (smul (fofN (snd ca)) BB)) (combine cs l)) = Ok bs).
      { apply (IH l El'). split; [exact El'|]. split; [cbn in L; lia|]. intros i c' a' Hc Ha. exact (R (S i) c' a' Hc Ha). }
      apply Ok_inj in G. f_equal. f_equal; [|exact G]. rewrite <- partial_iff in Ho.
      destruct (meqb_spec (elgamal_partial_decrypt c sk) (smul (fofN a) BB)) as [e|n]; destruct b; auto; [|exfalso; apply n; now apply Ho]. symmetry. now apply Ho.
Qed.
End Checks.
Print Assumptions C50_amount_check.
Print Assumptions C50_type_check.
Print Assumptions C50_type_search.
Print Assumptions C50_type_found.
Print Assumptions C50_attribute_check.

(** ** A concrete case *)
From Verif Require Import Zp Primality XfrToy HybProps.
Local Open Scope N_scope.
Definition memo_sc (t : N) : PF toy := fofN (t mod 1000).
Definition memo_bg : Mod RistrettoFr := self_mod RistrettoFr.
Definition memo_key : enc_keys toy (BG := memo_bg) := mkEk toy (smul (fofN 5 : PF toy) (gB toy)) (f1 : memo_bg) (le_bytes 32 77).
Definition memo_case : tmemo toy (BG := memo_bg) :=
  tm_new toy_h toy memo_sc (BG := memo_bg) (le_bytes 32 99) memo_key (Some (7, 256, fofN 11, fofN 12)) (Some (503, fofN 13)) [].
(** The amount [256 * 2^32 + 7] is confirmed and its neighbour is not; type 503 is
    found among three candidates and is not found among others. *)
Example C50_check_case :
  verify_amount toy memo_case (fofN 5) (2 ^ 40 + 7) = Ok tt /\ verify_amount toy memo_case (fofN 5) (2 ^ 40 + 8) = Err /\
  extract_asset_type toy memo_sc memo_case (fofN 5) [501; 502; 503] = Ok 503 /\ extract_asset_type toy memo_sc memo_case (fofN 5) [501; 502] = Err.
Proof. vm_compute. repeat split. Qed.

(** Model of the owner memos of anonymous records (api/src/anon_xfr/mod.rs,
    structs.rs, keys.rs), of the notes entering and leaving the anonymous pool with
    transparent records (ar_to_abar.rs, abar_to_ar.rs) and of the batch verifiers.

    Representation and simplifications.
    - The 32 bytes of an asset type are given by the number they encode, least
      significant byte first; [as_scalar] is a parameter.
    - The key group, SHA-512 key derivation and AES-256-GCM with the zero nonce are
      the fields of [suite]; random scalars are arguments.
    - The Merkle leaf information of a record is not touched by the code modelled
      here, except in [init_abar_to_ar_note].
    - Signatures, bincode serialization, the folding and PLONK verifiers are
      arguments.  A panic of a job of a parallel iterator is a panic of the batch;
      jobs are run from left to right. *)
From Coq Require Import List ZArith NArith Bool.
From Verif Require Import Base Field PField Power UtilsModel TurboModel RescueModel MixModel AxfrModel FoldModel XfrModel.
Import ListNotations.
Local Open Scope F_scope.
Local Open Scope cs_scope.

(** ** Owner memos *)
(** keys.rs 87-120 and 143-182: [mulb s] is the base point times [s], [pmul] scalar
    multiplication, [kdf] the first 32 bytes of SHA-512 of the compressed point,
    [seal] and [open] AES-GCM, [coords] the 32 bytes of each affine coordinate,
    [dflt] the default public key. *)
Record suite := mkSuite {
  Pt : Type; Sc : Type; mulb : Sc -> Pt; pmul : Pt -> Sc -> Pt; kdf : Pt -> list N;
  seal : list N -> list N -> option (list N); open : list N -> list N -> option (list N);
  coords : Pt -> list N * list N; pt_eqb : Pt -> Pt -> bool; dflt : Pt }.

Section Memo.
Context (F : PField) (P : rescue_instance F) (as_scalar : N -> F) (S : suite).

(** structs.rs 306-314 [AxfrOwnerMemo]. *)
Definition owner_memo := (Pt S * list N)%type.
(** keys.rs 43-48 [AXfrKeyPair]. *)
Record akey := mkAkey { ak_pk : Pt S; ak_sk : Sc S }.
Definition pk_scalars (p : Pt S) : res (F * F * F) :=
  let '(x, y) := coords S p in get_public_key_scalars F x y.
(** mod.rs 249-270 [commit], on points. *)
Definition commit_pt (pk : Pt S) (blind : F) (amount ty : N) : res F :=
  bind (pk_scalars pk) (fun k => Ok (AxfrModel.commit F P as_scalar k blind amount ty)).

(** keys.rs 143-182 [encrypt] with random scalar [r]; 89-120 [decrypt]. *)
Definition encrypt (pk : Pt S) (r : Sc S) (msg : list N) : res owner_memo :=
  match seal S (kdf S (pmul S pk r)) msg with
  | Some c => Ok (mulb S r, c)
  | None => Err
  end.
Definition decrypt (sk : Sc S) (m : owner_memo) : res (list N) :=
  match open S (kdf S (pmul S (fst m) sk)) (snd m) with
  | Some p => Ok p
  | None => Err
  end.

(** bls12_381.rs [to_bytes]: the 32 little-endian bytes of the canonical value. *)
Definition scalar_to_bytes (x : F) : list N := le_bytes 32 (Z.to_N (toZ x)).

(** mod.rs 135-174 [parse_memo]. *)
Definition parse_memo (bytes : list N) (k : akey) (commitment : F) : res (N * N * F) :=
  if negb (Nat.eqb (length bytes) (8 + 32 + 32)) then Err else
  bind (u8_le_slice_to_u64 (firstn 8 bytes)) (fun amount =>
  let ty := le_value (firstn 32 (skipn 8 bytes)) in
  bind (scalar_from_bytes F (firstn 32 (skipn 40 bytes))) (fun blind =>
  bind (commit_pt (ak_pk k) blind amount ty) (fun expected =>
  if feqb expected commitment then Ok (amount, ty, blind) else Err))).
(** mod.rs 182-189 [decrypt_memo]. *)
Definition decrypt_memo (m : owner_memo) (k : akey) (commitment : F) : res (N * N * F) :=
  bind (decrypt (ak_sk k) m) (fun bytes => parse_memo bytes k commitment).

(** structs.rs 80-89 [OpenAnonAssetRecord] without the leaf information. *)
Record orec := mkOrec { r_amount : N; r_type : N; r_blind : F; r_pk : Pt S; r_memo : option owner_memo }.
(** structs.rs 131-155 [OpenAnonAssetRecordBuilder::new().amount().asset_type().pub_key()]. *)
Definition builder (amount ty : N) (pk : Pt S) : orec := mkOrec amount ty 0 pk None.
(** structs.rs 173-176: the memo plaintext. *)
Definition memo_msg (amount ty : N) (blind : F) : list N :=
  le_bytes 8 amount ++ le_bytes 32 ty ++ scalar_to_bytes blind.
(** structs.rs 167-180 [finalize]; [blind] and [r] are the random draws. *)
Definition finalize (o : orec) (blind : F) (r : Sc S) : res orec :=
  match r_memo o with
  | Some _ => Err
  | None => bind (encrypt (r_pk o) r (memo_msg (r_amount o) (r_type o) blind)) (fun m =>
            Ok (mkOrec (r_amount o) (r_type o) blind (r_pk o) (Some m)))
  end.
(** structs.rs 183-186 [build], 208-219 [sanity_check]. *)
Definition build (o : orec) : res orec :=
  if pt_eqb S (r_pk o) (dflt S) then Err else
  match r_memo o with None => Err | Some _ => Ok o end.
(** structs.rs 192-206 [from_abar]. *)
Definition from_abar (commitment : F) (m : owner_memo) (k : akey) : res orec :=
  bind (decrypt_memo m k commitment) (fun x =>
  let '(amount, ty, blind) := x in Ok (mkOrec amount ty blind (ak_pk k) (Some m))).
(** structs.rs 43-53 [AnonAssetRecord::from_oabar]: [unwrap] panics on an error. *)
Definition from_oabar (o : orec) : res F :=
  match commit_pt (r_pk o) (r_blind o) (r_amount o) (r_type o) with Ok c => Ok c | _ => Panic end.
End Memo.

(** ** Batches *)
(** [par_iter().map(..).all(|x| x.is_ok())]. *)
Fixpoint all_ok (l : list (res unit)) : res bool :=
  match l with
  | [] => Ok true
  | Ok _ :: l' => all_ok l'
  | Err :: _ => Ok false
  | Panic :: _ => Panic
  end.
Definition batch_verdict (l : list (res unit)) : res unit :=
  bind (all_ok l) (fun b => if b then Ok tt else Err).

Section Notes.
Context (F : PField) (E : pgroup) (as_scalar : N -> F).
(** [fold_verify] is [verify_address_folding] followed by
    [prepare_verifier_input], [plonk p] the verifier with parameters [p]. *)
Context {D Fi Pf Vp Sig Memo Cproof : Type}
  (fold_verify : D -> Fi -> res (list F)) (plonk : Vp -> list F -> Pf -> res unit)
  (sig_verify : N -> list N -> Sig -> res unit).

(** *** Anonymous transfer *)
(** abar_to_abar.rs 41-48 [AXfrNote]. *)
Record axfr_note := mkAn { an_body : axfr_body F; an_proof : Pf; an_fold : Fi }.
Definition verify_axfr (p : Vp) (n : axfr_note) (root : F) (h : D) : res unit :=
  verify_anon_xfr_note F (fold_verify h) (plonk p) (an_body n) (an_proof n) (an_fold n) root.
(** abar_to_abar.rs 240-298 [batch_verify_anon_xfr_note]. *)
Definition axfr_job (x : Vp * axfr_note * F * D) : res unit :=
  let '(p, n, root, h) := x in
  bind (fold_verify h (an_fold n)) (fun fi => plonk p (pub_inputs F (an_body n) root fi) (an_proof n)).
Definition batch_axfr (ps : list Vp) (ns : list axfr_note) (roots : list F) (hs : list D) : res unit :=
  if existsb (fun x => negb (feqb (fst x) (b_root F (an_body (snd x))))) (combine roots ns) then Err else
  batch_verdict (map axfr_job (combine (combine (combine ps ns) roots) hs)).

(** *** Transparent to anonymous *)
(** ar_to_abar.rs 26-45 [ArToAbarNote], [ArToAbarBody]. *)
Record shield_body := mkSb { sb_in : bar E; sb_out : F; sb_proof : Pf; sb_memo : Memo }.
Record shield_note := mkSn { sn_body : shield_body; sn_sig : Sig }.
Context (ser : shield_body -> res (list N)).
(** xfr/structs.rs [is_confidential], [get_amount().unwrap()]. *)
Definition unwrap_plain (r : bar E) : res (N * N) :=
  match get_amount E (b_amount r), get_asset_type E (b_type r) with
  | Ok a, Ok t => Ok (a, t)
  | _, _ => Panic
  end.
(** ar_to_abar.rs 157-180 [verify_ar_to_abar_body]. *)
Definition verify_shield_body (p : Vp) (b : shield_body) : res unit :=
  if amount_conf E (sb_in b) || type_conf E (sb_in b) then Err else
  bind (unwrap_plain (sb_in b)) (fun at_ =>
  plonk p [fofN (fst at_); as_scalar (snd at_); sb_out b] (sb_proof b)).
(** ar_to_abar.rs 68-77 [verify_ar_to_abar_note]. *)
Definition verify_shield (p : Vp) (n : shield_note) : res unit :=
  bind (ser (sn_body n)) (fun msg =>
  bind (sig_verify (b_pk (sb_in (sn_body n))) msg (sn_sig n)) (fun _ =>
  verify_shield_body p (sn_body n))).
(** ar_to_abar.rs 81-104 [batch_verify_ar_to_abar_note]. *)
Definition batch_shield (p : Vp) (ns : list shield_note) : res unit :=
  batch_verdict (map (fun n =>
    bind (ser (sn_body n)) (fun msg =>
    bind (sig_verify (b_pk (sb_in (sn_body n))) msg (sn_sig n)) (fun _ =>
    verify_shield_body p (sn_body n)))) ns).

(** *** Anonymous to transparent *)
(** abar_to_ar.rs 42-49 [AbarToArNote], 64-75 [AbarToArBody]. *)
Record unshield_body := mkUb { ub_in : F; ub_out : bar E; ub_root : F; ub_version : N; ub_memo : option Memo }.
Record unshield_note := mkUn { un_body : unshield_body; un_proof : Pf; un_fold : Fi }.
Definition unshield_conf (n : unshield_note) : bool :=
  amount_conf E (ub_out (un_body n)) || type_conf E (ub_out (un_body n)).
(** abar_to_ar.rs 166-212 [verify_abar_to_ar_note]. *)
Definition verify_unshield (p : Vp) (n : unshield_note) (root : F) (h : D) : res unit :=
  if unshield_conf n then Err else
  bind (fold_verify h (un_fold n)) (fun fi =>
  bind (unwrap_plain (ub_out (un_body n))) (fun at_ =>
  if feqb root (ub_root (un_body n)) then
    plonk p ([ub_in (un_body n); root; fofN (fst at_); as_scalar (snd at_)] ++ fi) (un_proof n)
  else Err)).
(** abar_to_ar.rs 217-283 [batch_verify_abar_to_ar_note]. *)
Definition unshield_job (p : Vp) (x : unshield_note * F * D) : res unit :=
  let '(n, root, h) := x in
  bind (fold_verify h (un_fold n)) (fun fi =>
  bind (unwrap_plain (ub_out (un_body n))) (fun at_ =>
  plonk p ([ub_in (un_body n); root; fofN (fst at_); as_scalar (snd at_)] ++ fi) (un_proof n))).
Definition batch_unshield (p : Vp) (ns : list unshield_note) (roots : list F) (hs : list D) : res unit :=
  if existsb unshield_conf ns then Err else
  if existsb (fun x => negb (feqb (fst x) (ub_root (un_body (snd x))))) (combine roots ns) then Err else
  batch_verdict (map (unshield_job p) (combine (combine ns roots) hs)).
(** abar_to_ar.rs 78-132 [init_abar_to_ar_note]: the public part of the note. *)
Definition init_unshield (Pr : rescue_instance F) (o : oabar F) (k : keypair F) (owner : N)
  : res (unshield_body * payer_w F) :=
  match AxfrModel.o_leaf F o with
  | None => Err
  | Some i =>
      if pk_eqb F (kp_pk F k) (AxfrModel.o_pk F o) then
        Ok (mkUb (nullify F Pr as_scalar k (AxfrModel.o_amount F o) (AxfrModel.o_type F o) (l_uid F i))
                 (mkBar (APlain (AxfrModel.o_amount F o)) (TPlain (AxfrModel.o_type F o)) owner) (l_root F i) (l_version F i) None,
            mkPayer F (AxfrModel.o_amount F o) (as_scalar (AxfrModel.o_type F o)) (l_uid F i) (l_path F i) (AxfrModel.o_blind F o))
      else Err
  end.

(** *** Anonymous to confidential *)
(** abar_to_bar.rs 49-95 [AbarToBarNote].  [core] is the body shared by
    [verify_abar_to_bar_note] (lines 260-354) and the job of the batch (390-487):
    commitments, delegated Schnorr proof, folding and PLONK verification. *)
Record conf_body := mkCb { cb_in : F; cb_out : bar E; cb_cp : Cproof; cb_root : F; cb_version : N; cb_memo : option Memo }.
Record conf_note := mkCn { cn_body : conf_body; cn_proof : Pf; cn_fold : Fi }.
Context (core : Vp -> conf_note -> F -> D -> res unit).
Definition is_transparent (r : bar E) : bool := negb (amount_conf E r) && negb (type_conf E r).
(** abar_to_bar.rs 239-355 [verify_abar_to_bar_note]; 360-496 [batch_verify_abar_to_bar_note]. *)
Definition verify_to_conf (p : Vp) (n : conf_note) (root : F) (h : D) : res unit :=
  if feqb root (cb_root (cn_body n)) then
    if is_transparent (cb_out (cn_body n)) then Err else core p n root h
  else Err.
Definition batch_to_conf (p : Vp) (ns : list conf_note) (roots : list F) (hs : list D) : res unit :=
  if existsb (fun x => negb (feqb (fst x) (cb_root (cn_body (snd x))))) (combine roots ns) then Err else
  if existsb (fun n => is_transparent (cb_out (cn_body n))) ns then Err else
  batch_verdict (map (fun x => let '(n, root, h) := x in core p n root h) (combine (combine ns roots) hs)).

(** *** Confidential to anonymous *)
(** bar_to_abar.rs 40-60 [BarToAbarNote].  [core'] is [verify_bar_to_abar]
    (216-283). *)
Record from_body := mkFb { fb_in : bar E; fb_out : F; fb_proof : Cproof * Pf; fb_memo : Memo }.
Record from_note := mkFn { fn_body : from_body; fn_sig : Sig }.
Context (core' : Vp -> from_body -> res unit) (ser' : from_body -> res (list N)).
(** bar_to_abar.rs 96-111 [verify_bar_to_abar_note]; 115-142 [batch_verify_bar_to_abar_note]. *)
Definition verify_from_conf (p : Vp) (n : from_note) (pk : N) : res unit :=
  bind (core' p (fn_body n)) (fun _ =>
  bind (ser' (fn_body n)) (fun msg => sig_verify pk msg (fn_sig n))).
Definition batch_from_conf (p : Vp) (ns : list from_note) (pks : list N) : res unit :=
  batch_verdict (map (fun x =>
    bind (core' p (fn_body (fst x))) (fun _ =>
    bind (ser' (fn_body (fst x))) (fun msg => sig_verify (snd x) msg (fn_sig (fst x))))) (combine ns pks)).
End Notes.

(** ** Circuits *)
Section Circuits.
Context (F : PField) (P : rescue_instance F) (e : N).
(** ar_to_abar.rs 183-224 [build_ar_to_abar_cs], up to the padding. *)
Definition shield_cs (q : payee_w F) : CS F unit :=
  a <- new_variable F (fofN (q_amount F q)) ;;
  prepare_pi_variable F a ;;
  t <- new_variable F (q_type F q) ;;
  prepare_pi_variable F t ;;
  b <- new_variable F (q_blind F q) ;;
  pk <- new_pk F (q_pk F q) ;;
  com <- commit_in_cs F P e b a t pk ;;
  prepare_pi_variable F com.
(** abar_to_ar.rs 306-395 [build_abar_to_ar_cs], up to the padding ([root_var] is
    always None when tested). *)
Definition unshield_cs (folding : pk_v -> sk_v -> CS F unit) (p : payer_w F) (k : keypair F) : CS F unit :=
  v <- add_payer F p ;;
  pk <- new_pk F (kp_pk F k) ;;
  sk <- new_sk F (kp_sk F k) ;;
  com <- commit_in_cs F P e (pv_blind v) (pv_amount v) (pv_type v) pk ;;
  ua <- linear_combine F (pv_uid v) (pv_amount v) zero_var zero_var (fofZ (2 ^ 64)) 1 0 0 ;;
  nf <- nullify_in_cs F P e sk ua (pv_type v) pk ;;
  root <- compute_merkle_root_variables F P e (pv_uid v) com (pv_path v) ;;
  prepare_pi_variable F nf ;;
  prepare_pi_variable F root ;;
  prepare_pi_variable F (pv_amount v) ;;
  prepare_pi_variable F (pv_type v) ;;
  folding pk sk.
End Circuits.

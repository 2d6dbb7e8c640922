(** The stored and transmitted forms of owner memos (api/src/xfr/structs.rs 384-394 and
    702-879): the derived [Serialize] and the hand-written [Deserialize], which also reads
    the memos of earlier versions.

    Representation and simplifications.
    - Values and formats are those of SerModel.  Structs are written by serde_json as maps
      and by rmp_serde as sequences; both readers accept both.  Sequences with further
      elements are refused by both formats.
    - A key type is its name, or a map from its name to the unit value (the two forms
      in which serde formats carry unit variants); numbers for variants and fields, which
      only binary formats use, are left out.
    - The reason of an error is not modelled. *)
From Coq Require Import List NArith Bool String Ascii.
From Verif Require Import Base UtilsModel KeyModel SerModel SerSpec.
From Verif Require RecordModel.
Import ListNotations.
Local Open Scope N_scope.

Notation omemo := RecordModel.omemo.
Notation mkOm := RecordModel.mkOm.

(** The names of the fields (structs.rs 387-394, 759-764) and of the key types (sig.rs 38-45). *)
Definition n_key_type := chars "key_type".
Definition n_share := chars "blind_share".
Definition n_share_bytes := chars "blind_share_bytes".
Definition n_lock := chars "lock".
Definition n_lock_bytes := chars "lock_bytes".
Definition n_ciphertext := chars "ciphertext".
Definition n_ephemeral := chars "ephemeral_public_key".
Definition kt_name (k : key_type) : bytes :=
  match k with KEd25519 => chars "Ed25519" | KSecp256k1 => chars "Secp256k1" | KAddress => chars "Address" end.

(** ** Writing *)
(** structs.rs 386 [Serialize for OwnerMemo]. *)
Definition memo_map (m : omemo) : val :=
  VMap [(VStr n_key_type, VStr (kt_name (RecordModel.om_kt m)));
        (VStr n_share_bytes, write_vec (RecordModel.om_share m));
        (VStr n_lock_bytes, write_vec (RecordModel.om_lock m))].
Definition memo_seq (m : omemo) : val :=
  VSeq [VStr (kt_name (RecordModel.om_kt m)); write_vec (RecordModel.om_share m); write_vec (RecordModel.om_lock m)].
(** The lock of earlier versions: hybrid_encryption.rs 117 [Serialize for
    ZeiHybridCiphertext]. *)
Definition hybrid_map (f : source) (ct eph : bytes) : val :=
  VMap [(VStr n_ciphertext, write ctext f ct); (VStr n_ephemeral, write exact32 f eph)].
Definition hybrid_seq (f : source) (ct eph : bytes) : val := VSeq [write ctext f ct; write exact32 f eph].

(** ** Reading *)
(** sig.rs 36 [Deserialize for KeyType]. *)
Definition kt_of (t : bytes) : res key_type :=
  if bytes_eqb t (kt_name KEd25519) then Ok KEd25519
  else if bytes_eqb t (kt_name KSecp256k1) then Ok KSecp256k1
  else if bytes_eqb t (kt_name KAddress) then Ok KAddress else Err.
Definition read_kt (v : val) : res key_type :=
  match v with
  | VStr t => kt_of t
  | VMap [(VStr t, VUnit)] => kt_of t
  | _ => Err
  end.
(** Setting a field that may be set once (structs.rs 825-827 and alike). *)
Definition once {T} (o : option T) (r : res T) : res (option T) :=
  match o with Some _ => Err | None => rmap Some r end.
Definition need {T} (o : option T) : res T := match o with Some t => Ok t | None => Err end.

(** hybrid_encryption.rs 117 [Deserialize for ZeiHybridCiphertext]: unknown fields are
    skipped. *)
Fixpoint hybrid_fields (f : source) (l : list (val * val)) (ct eph : option bytes) : res (option bytes * option bytes) :=
  match l with
  | [] => Ok (ct, eph)
  | (VStr k, v) :: r =>
      if bytes_eqb k n_ciphertext then bind (once ct (read ctext f v)) (fun ct => hybrid_fields f r ct eph)
      else if bytes_eqb k n_ephemeral then bind (once eph (read exact32 f v)) (fun eph => hybrid_fields f r ct eph)
      else hybrid_fields f r ct eph
  | _ => Err
  end.
Definition read_hybrid (f : source) (v : val) : res (bytes * bytes) :=
  match v with
  | VMap l => bind (hybrid_fields f l None None) (fun p => bind (need (fst p)) (fun ct => bind (need (snd p)) (fun eph => Ok (ct, eph))))
  | VSeq [c; e] => bind (read ctext f c) (fun ct => bind (read exact32 f e) (fun eph => Ok (ct, eph)))
  | _ => Err
  end.

(** structs.rs 702-720: untagged enums keep the value, try the old form and, when that is
    an error, the new one. *)
Definition untagged {T} (old new : res T) : res T := match old with Err => new | r => r end.
(** structs.rs 704-707 [CompatibleKeyType] with 787-793. *)
Definition com_key_type (v : val) : res key_type :=
  match v with VUnit => Ok KEd25519 | _ => read_kt v end.
(** structs.rs 711-714 [CompatibleBlindShare] with 794-800. *)
Definition com_share (v : val) : res bytes := untagged (read compressed Buffered v) (read_vec v).
(** structs.rs 718-721 [CompatibleLock] with 801-807. *)
Definition com_lock (v : val) : res bytes := untagged (rmap (enc hybrid) (read_hybrid Buffered v)) (read_vec v).

(** structs.rs 783-813 [visit_seq]. *)
Definition memo_of_seq (l : list val) : res omemo :=
  match l with
  | a :: b :: c :: rest =>
      bind (com_key_type a) (fun kt => bind (com_share b) (fun sh => bind (com_lock c) (fun lk =>
      match rest with [] => Ok (mkOm kt sh lk) | _ => Err end)))
  | [a; b] => bind (com_key_type a) (fun _ => bind (com_share b) (fun _ => Err))
  | [a] => bind (com_key_type a) (fun _ => Err)
  | [] => Err
  end.
(** structs.rs 815-857 [visit_map], the loop. *)
Fixpoint memo_fields (f : source) (l : list (val * val)) (kt : option key_type) (sh lk : option bytes)
  : res (option key_type * option bytes * option bytes) :=
  match l with
  | [] => Ok (kt, sh, lk)
  | (VStr k, v) :: r =>
      if bytes_eqb k n_key_type then bind (once kt (read_kt v)) (fun kt => memo_fields f r kt sh lk)
      else if bytes_eqb k n_share then bind (once sh (read compressed f v)) (fun sh => memo_fields f r kt sh lk)
      else if bytes_eqb k n_share_bytes then bind (once sh (read_vec v)) (fun sh => memo_fields f r kt sh lk)
      else if bytes_eqb k n_lock then bind (once lk (rmap (enc hybrid) (read_hybrid f v))) (fun lk => memo_fields f r kt sh lk)
      else if bytes_eqb k n_lock_bytes then bind (once lk (read_vec v)) (fun lk => memo_fields f r kt sh lk)
      else Err
  | _ => Err
  end.
(** structs.rs 815-867 [visit_map]. *)
Definition memo_of_map (f : source) (l : list (val * val)) : res omemo :=
  bind (memo_fields f l None None None) (fun '(kt, sh, lk) =>
  let kt := match kt with Some k => k | None => KEd25519 end in
  bind (need sh) (fun sh => bind (need lk) (fun lk => Ok (mkOm kt sh lk)))).
(** structs.rs 725-879 [deserialize]. *)
Definition read_memo (f : source) (v : val) : res omemo :=
  match v with VMap l => memo_of_map f l | VSeq l => memo_of_seq l | _ => Err end.

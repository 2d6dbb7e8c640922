(** Model of the circuits for which parameters are generated: api/src/setup.rs
    132-167 [ProverParams::new], 302-331 [ar_to_abar_params], 334-376
    [abar_to_ar_params], with the placeholder witnesses of abar_to_abar.rs 374-403 and
    address_folding.rs 53-92.  The indexer reads the gates, wires and public positions
    of these circuits only; the structured reference string is not modelled here.
    The generated keys of lines 306-307 and 338-339 and the coordinates of the default public
    key are arguments. *)
From Coq Require Import List ZArith NArith Bool.
From Verif Require Import Base Field PField TurboModel RescueModel AxfrModel NoteModel FoldModel AfoldModel.
Import ListNotations.

Section Setup.
Context (F K : PField).
Local Open Scope F_scope.
(** address_folding.rs 53-92: everything is zero; [x], [y] are the coordinates of the
    default public key. *)
Definition default_folding (x y : K) : fold_witness F K :=
  mkFw x y (repeat 0%N 32) [0; 0; 0] 0 0 [0; 0; 0] 0 0.
(** abar_to_abar.rs 374-403 [AXfrWitness::fake]. *)
Definition fake_node : node F := mkNode F 0 0 0 0.
Definition fake_payer (depth : nat) : payer_w F := mkPayer F 0 0 0 (repeat fake_node depth) 0.
Definition fake_payee (pk : pubkey F) : payee_w F := mkPayee F 0 0 0 pk.
Section Circuits.
Context (P : rescue_instance F) (e : N) (folding : pk_v -> sk_v -> CS F unit).
(** setup.rs 139-152; the key pair is the default one of the folding witness. *)
Definition xfr_params_cs (n_payers n_payees depth : nat) (k : keypair F) (fee_type : F) : res (tcs F) :=
  build_multi_xfr_cs F P e folding (repeat (fake_payer depth) n_payers) (repeat (fake_payee (kp_pk F k)) n_payees) k 0 fee_type.
(** setup.rs 303-315; the circuit is padded (ar_to_abar.rs 220). *)
Definition shield_params_cs (pk : pubkey F) : tcs F := pad F (snd (shield_cs F P e (fake_payee pk) (cs_new F))).
(** setup.rs 335-358; the circuit is padded (abar_to_ar.rs 394). *)
Definition unshield_params_cs (depth : nat) (k : keypair F) : tcs F :=
  pad F (snd (unshield_cs F P e folding (fake_payer depth) k (cs_new F))).
End Circuits.
End Setup.

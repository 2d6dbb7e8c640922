(** Model of the circuits for which the parameters of the notes between confidential and
    anonymous records are generated: api/src/setup.rs 170-228 [bar_to_abar_params] and
    229-300 [abar_to_bar_params].  The keys generated from the fixed seed are
    arguments; the structured reference string is not modelled here. *)
From Coq Require Import List ZArith NArith.
From Verif Require Import Base Field PField TurboModel RescueModel AxfrModel SimModel FoldModel AfoldModel InspModel SetupModel.
Import ListNotations.

Section Setup.
Context (F K : PField) (P : rescue_instance F) (e : N).
Local Open Scope F_scope.
(** setup.rs 174-196: three data, randomizers and responses, everything zero. *)
Definition default_insp : insp_witness F K := mkIw [(0, 0); (0, 0); (0, 0)] 0 0 [0; 0; 0] 0 0.
(** setup.rs 202-211; the circuit is padded (bar_to_abar.rs 615). *)
Definition from_params_cs (pk : F * F * F) : res (tcs F) :=
  rmap (fun p => TurboModel.pad F (snd p)) (bar_to_abar_cs F K P e 0 0 0 pk default_insp (cs_new F)).
(** setup.rs 258-283; the circuit is padded (abar_to_bar.rs 828).  [folding] is the
    gadget with the default witness, [k] the key scalars taken from it. *)
Definition to_params_cs (folding : pk_v -> sk_v -> CR F unit) (depth : nat) (k : keypair F) : res (tcs F) :=
  rmap (fun p => TurboModel.pad F (snd p)) (abar_to_bar_cs F K P e folding (fake_payer F depth) k default_insp (cs_new F)).
End Setup.

(** C11 is false of the code: the verifier only asks for a range proof of the
    difference between input and output totals, so value can be burned. *)
From Coq Require Import List NArith ZArith Bool Lia ZifyBool ZifyNat ZifyN.
From Verif Require Import Base Field UtilsModel XfrModel XfrSpec XfrProofs XfrHonest.
Import ListNotations.
Local Open Scope Z_scope.

Section Burn.
Context (E : pgroup) (O : oracles E) (sc : N -> PF E).

(** A record of amount [a] under a Pedersen commitment with blindings 1 and 1,
    with the plain type 7. *)
Definition hidden (a : N) : oar E :=
  mkOar E (mkBar (AConf (compress E (pedersen E (Z.of_N a mod 2 ^ 32) f1))
                        (compress E (pedersen E (Z.of_N a / 2 ^ 32) f1))) (TPlain 7%N) 0%N)
    a f1 f1 7%N f0.

Lemma hidden_consistent a : is_u64 a -> consistent E sc (hidden a).
Proof. intros H. split; [exact H|]. split; [right; reflexivity|left; split; reflexivity]. Qed.

Lemma burn pr : range_complete E O pr ->
  exists b p, x_proof E O b = ConfAmount E O p /\
    x_in E O b = [o_bar E (hidden 10)] /\ x_out E O b = [o_bar E (hidden 9)] /\
    verify_bodies E O sc [b] = Ok tt.
Proof.
  intros Hc.
  assert (Hg : exists p, gen_range_proof E O pr [hidden 10] [hidden 9] = Ok p).
  { eexists. reflexivity. }
  destruct Hg as [p Hp].
  exists (mkXbody E O [o_bar E (hidden 10)] [o_bar E (hidden 9)] (ConfAmount E O p)), p.
  repeat split.
  apply verify_bodies_ok. cbn [flat_map]. rewrite !app_nil_r, Forall_one.
  split; [reflexivity|]. split; [|split; [apply asset_nil|apply mix_nil]].
  apply (honest_range E O sc pr [hidden 10] [hidden 9] p Hc); [|exact Hp].
  repeat constructor; apply hidden_consistent; reflexivity.
Qed.
End Burn.

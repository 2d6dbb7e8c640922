(** What a mix proves (C17, C18) is what histories of transfers need of it. *)
From Coq Require Import List Arith NArith ZArith Bool Lia.
From Verif Require Import Base Field PField CmixModel CmixSpec CmixProps XfrModel XfrSpec XhistSpec XhistProofs.
Import ListNotations.
Local Open Scope Z_scope.

Section Mix.
Context {F : PField}.
Definition mvals (l : list (Z * F)) : list (mval F) := map (fun r => mkVal (fofZ (fst r)) (snd r)) l.
Definition in_N (l : list (Z * F)) : list (N * F) := map (fun r => (Z.to_N (fst r), snd r)) l.
Lemma mvals_N l : Forall (fun r => 0 <= fst r) l -> mvals l = records (in_N l).
Proof.
  induction 1 as [|r l H _ IH]; [reflexivity|]. cbn [mvals in_N records map] in *. fold (mvals l) (in_N l) (records (in_N l)). rewrite IH.
  unfold fofN. cbn [fst snd]. rewrite Z2N.id by exact H. reflexivity.
Qed.
Lemma held_N t l : Forall (fun r => 0 <= fst r) l -> held t l = Z.of_N (CmixSpec.total t (in_N l)).
Proof.
  induction 1 as [|r l H _ IH]; [reflexivity|]. unfold held in *. cbn [map in_N CmixSpec.total]. fold (in_N l). rewrite zsum_cons', IH.
  unfold feqb. destruct (f_dec (snd r) t) as [e|e], (f_dec t (snd r)) as [e'|e']; try (exfalso; congruence); rewrite N2Z.inj_add, ?Z2N.id by exact H; reflexivity.
Qed.
Lemma mix_never_increases (S : list F) (ins outs : list (Z * F)) :
  enough S (length ins) -> Z.of_nat (length ins) * 2 ^ 64 < pchar F ->
  Forall (fun r => 0 <= fst r < pchar F) outs ->
  can_mix (fun ch => forall i, In (ch i) S) (mvals ins) (mvals outs) ->
  never_increases ins outs.
Proof.
  intros HS HP HO HM HN HI.
  assert (I0 : Forall (fun r => 0 <= fst r) ins) by (revert HI; apply Forall_impl; intros; lia).
  assert (O0 : Forall (fun r => 0 <= fst r) outs) by (revert HO; apply Forall_impl; intros; lia).
  rewrite (mvals_N ins I0), (mvals_N outs O0) in HM.
  destruct (C18_no_inflation S (in_N ins) (in_N outs)) as [A B]; unfold in_N; rewrite ?map_length; auto.
  - apply Forall_map. revert HI. apply Forall_impl. intros r H. cbn [fst]. apply N2Z.inj_lt. rewrite Z2N.id by lia. exact (proj2 H).
  - apply Forall_map. revert HO. apply Forall_impl. intros r H. cbn [fst]. rewrite Z2N.id by lia. lia.
  - split.
    + unfold in_N in B. apply (proj1 (Forall_map _ _ _)) in B. rewrite Forall_forall in *. intros r Hr. specialize (B r Hr). cbn [fst] in B.
      specialize (O0 r Hr). split; [exact O0|]. apply N2Z.inj_lt in B. rewrite Z2N.id in B by exact O0. exact B.
    + intros t. rewrite (held_N t ins I0), (held_N t outs O0). apply N2Z.inj_le. apply A.
Qed.
End Mix.

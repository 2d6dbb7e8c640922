(** What the relation of the mix means for the records: totals, sorting and merging. *)
From Coq Require Import List Arith NArith ZArith Bool Lia Permutation Field Ring.
From Verif Require Import Base Field PField PolyModel PolySpec PolyProofs PolyLemmas PlonkPoly CmixModel CmixSpec CmixProofs CmixSystem CmixPhase CmixTop.
Import ListNotations.
Local Open Scope F_scope.

Section Lemmas.
Ltac conj := repeat match goal with |- _ /\ _ => split end.
Context {F : PField}.
Add Field Fle : (f_th F).
Notation mval := (mval F).

Lemma feqb_true (x y : F) : feqb x y = true <-> x = y. Proof. destruct (feqb_spec x y); split; intros; auto; discriminate. Qed.
(** ** Totals *)
Lemma total_app t (a b : list (N * F)) : total t (a ++ b) = (total t a + total t b)%N.
Proof. induction a as [|[x u] a IH]; cbn; [reflexivity|]. rewrite IH. lia. Qed.
Lemma total_perm t (a b : list (N * F)) : Permutation a b -> total t a = total t b.
Proof. induction 1 as [|[x u] a b P IH|[x u] [y v] a|a b c P1 IH1 P2 IH2]; cbn; lia. Qed.
Lemma ftotal_app t (a b : list mval) : ftotal t (a ++ b) = ftotal t a + ftotal t b.
Proof. induction a as [|x a IH]; cbn; [ring|]. rewrite IH. ring. Qed.
Lemma ftotal_perm t (a b : list mval) : Permutation a b -> ftotal t a = ftotal t b.
Proof. induction 1 as [|x a b P IH|x y a|a b c P1 IH1 P2 IH2]; cbn; [reflexivity|rewrite IH; reflexivity|ring|congruence]. Qed.
Lemma fofN_add (a b : N) : fofN (F := F) (a + b) = fofN a + fofN b.
Proof. unfold fofN. rewrite N2Z.inj_add. apply fofZ_add. Qed.
Lemma fofN_0 : fofN (F := F) 0 = 0. Proof. reflexivity. Qed.
Lemma records_app (a b : list (N * F)) : records (a ++ b) = records a ++ records b. Proof. apply map_app. Qed.
Lemma ftotal_records t (l : list (N * F)) : ftotal t (records l) = fofN (total t l).
Proof. induction l as [|[a u] l IH]; cbn; [reflexivity|]. fold (records l). rewrite IH, fofN_add. destruct (feqb t u); [reflexivity|rewrite fofN_0; reflexivity]. Qed.

(** ** Chains of gates *)
Fixpoint linked (prev : mval) (s o inter : list mval) : Prop :=
  match s, o, inter with
  | s1 :: s', o1 :: o', i1 :: i' => (kept prev s1 o1 i1 \/ merged prev s1 o1 i1) /\ linked i1 s' o' i'
  | _, _, _ => True
  end.
Lemma chain_linked (S : list F) : NoDup S -> (2 < length S)%nat -> forall s prev o inter, chainr (fun x => In x S) prev s o inter -> linked prev s o inter.
Proof.
  intros ND L. induction s as [|s1 s IH]; intros prev [|o1 o] [|i1 inter] H; cbn in *; auto. destruct H as [H1 H2]. split; [|now apply IH]. exact (gate_sound S _ _ _ _ ND L H1).
Qed.
Lemma linked_chain (C : F -> Prop) : forall s prev o inter, linked prev s o inter -> chainr C prev s o inter.
Proof. induction s as [|s1 s IH]; intros prev [|o1 o] [|i1 inter] H; cbn in *; auto. destruct H as [H1 H2]. split; [|now apply IH]. intros. now apply gate_complete. Qed.
(** The outputs of a chain over integers are integers with the same totals. *)
Lemma linked_records : forall s prev o inter, linked (mkVal (fofN (fst prev)) (snd prev)) (records s) o inter -> length o = length s -> length inter = length s ->
  exists m, o ++ [last inter (mkVal (fofN (fst prev)) (snd prev))] = records m /\ forall t, total t m = total t (prev :: s).
Proof.
  induction s as [|[b u] s IH]; intros prev [|o1 o] [|i1 inter] H L1 L2; try discriminate L1; try discriminate L2.
  - exists [prev]. cbn. auto.
  - cbn [records map fst snd linked] in H. fold (records s) in H. destruct H as [H H']. injection L1 as L1. injection L2 as L2.
    assert (LL : forall d, last (i1 :: inter) d = last inter i1) by (intros d; destruct inter; [reflexivity|]; cbn [last]; clear; revert d i1; induction inter as [|x l IHl]; intros; [reflexivity|]; cbn [last] in *; destruct l; [reflexivity|]; apply IHl || reflexivity).
    destruct H as [[E1 E2]|[E1 [E2 [E3 E4]]]].
    + subst o1 i1. destruct (IH (b, u) o inter H' L1 L2) as [m [Em Et]]. exists (prev :: m). split.
      * rewrite LL. cbn [app records map]. fold (records m). cbn [fst snd] in Em. rewrite <- Em. reflexivity.
      * intros t. cbn [total]. destruct prev as [a v]. rewrite Et. reflexivity.
    + cbn [amount atype] in E1, E2, E3, E4. destruct prev as [a v]. cbn [fst snd] in *. subst u.
      assert (Ei : i1 = mkVal (fofN (fst ((a + b)%N, v))) (snd ((a + b)%N, v))) by (destruct i1; cbn in *; rewrite fofN_add; congruence).
      rewrite Ei in H'. destruct (IH ((a + b)%N, v) o inter H' L1 L2) as [m [Em Et]]. exists ((0%N, atype o1) :: m). split.
      * rewrite LL. cbn [app records map fst snd]. fold (records m). rewrite Ei, <- Em. f_equal. destruct o1 as [x y]. cbn [amount atype] in *. rewrite E1. reflexivity.
      * intros t. cbn [total]. rewrite Et. cbn [total]. destruct (feqb t v), (feqb t (atype o1)); lia.
Qed.
Lemma linked_ftotal t : forall s prev o inter, linked prev s o inter -> length o = length s -> length inter = length s ->
  ftotal t (prev :: s) = ftotal t (o ++ [last inter prev]).
Proof.
  induction s as [|s1 s IH]; intros prev [|o1 o] [|i1 inter] H L1 L2; try discriminate L1; try discriminate L2; [reflexivity|].
  cbn [linked] in H. destruct H as [H H']. injection L1 as L1. injection L2 as L2. specialize (IH i1 o inter H' L1 L2).
  assert (LL : last (i1 :: inter) prev = last inter i1) by (clear; revert prev i1; induction inter as [|x l IHl]; intros; [reflexivity|]; cbn [last] in *; destruct l; [reflexivity|]; apply IHl || reflexivity).
  rewrite LL. cbn [app ftotal] in *. rewrite <- IH.
  destruct H as [[<- <-]|[E1 [E2 [E3 E4]]]]; [reflexivity|]. rewrite E1, E3, E4, <- E2. destruct (feqb t (atype prev)), (feqb t (atype o1)); ring.
Qed.

(** ** Reading the relation *)
Section Sound.
Variable S : list F.
Hypothesis ND : NoDup S.
Notation Cs := (fun x => In x S).
Lemma shuf_perm (A B : list mval) : (4 * (length A * length A) < length S)%nat -> length A = length B -> shuf Cs A B -> Permutation A B.
Proof. intros L E H. apply (shuffle_sound S); auto. Qed.
Lemma last_app_ne {A} (l : list A) d : l <> [] -> l = removelast l ++ [last l d]. Proof. apply app_removelast_last. Qed.
Lemma side_linked V U Y M : (2 <= length V)%nat -> (4 * (length V * length V) < length S)%nat -> sized (length V) U Y M -> side Cs V U Y M ->
  exists s0 s, U = s0 :: s /\ Permutation V (s0 :: s) /\ linked s0 s (removelast M) (Y ++ [last M dval]) /\
    length (removelast M) = length s /\ length (Y ++ [last M dval]) = length s /\ M = removelast M ++ [last (Y ++ [last M dval]) s0].
Proof.
  intros L2 LS [LM [[E _]|[_ [LU LY]]]] H; [lia|]. destruct U as [|s0 s]; [cbn in LU; lia|]. cbn [side] in H. destruct H as [H1 H2]. exists s0, s. conj; auto.
  - apply shuf_perm; auto.
  - apply (chain_linked S); auto. nia.
  - rewrite removelast_length. cbn in LU. lia.
  - rewrite app_length. cbn in *. lia.
  - rewrite last_last. apply app_removelast_last. intros E. rewrite E in LM. cbn in LM. lia.
Qed.
Lemma side_ftotal V U Y M t : (2 <= length V)%nat -> (4 * (length V * length V) < length S)%nat -> sized (length V) U Y M -> side Cs V U Y M -> ftotal t V = ftotal t M.
Proof.
  intros L2 LS Z H. destruct (side_linked V U Y M L2 LS Z H) as [s0 [s [_ [P [K [E1 [E2 EM]]]]]]]. rewrite EM. rewrite <- (linked_ftotal t s s0 _ _ K E1 E2). now apply ftotal_perm.
Qed.
Lemma side_records v U Y M : (2 <= length v)%nat -> (4 * (length v * length v) < length S)%nat -> sized (length v) U Y M -> side Cs (records v) U Y M ->
  exists m, M = records m /\ forall t, total t m = total t v.
Proof.
  intros L2 LS Z H. assert (LV : length (records v) = length v) by apply map_length.
  destruct (side_linked (records v) U Y M) as [s0 [s [_ [P [K [E1 [E2 EM]]]]]]]; rewrite ?LV; auto.
  apply Permutation_sym, Permutation_map_inv in P. destruct P as [r [Er Pr]]. destruct r as [|r0 r]; [discriminate Er|]. cbn [map] in Er. injection Er as E0 Es. subst s0 s. fold (records r) in *.
  destruct (linked_records r r0 _ _ K) as [m [Em Et]]; [rewrite E1; apply map_length|rewrite E2; apply map_length|].
  exists m. split; [rewrite EM; exact Em|]. intros t. rewrite Et. symmetry. now apply total_perm.
Qed.
End Sound.

(** ** Strategies of a dishonest prover *)
(** No merging at all. *)
Lemma side_keep (V : list mval) : (2 <= length V)%nat -> side (fun _ => True) V V (removelast (tl V)) V /\ sized (length V) V (removelast (tl V)) V.
Proof.
  intros L. destruct V as [|v0 V]; [cbn in L; lia|]. split.
  - cbn [side tl]. split; [intros k z _ _; reflexivity|]. apply linked_chain.
    assert (E : removelast V ++ [last (v0 :: V) dval] = V) by (destruct V as [|v1 V]; [cbn in L; lia|]; change (last (v0 :: v1 :: V) dval) with (last (v1 :: V) dval); symmetry; apply app_removelast_last; discriminate).
    rewrite E. clear L E. revert v0. induction V as [|v1 V IH]; intros v0; [exact I|]. change (removelast (v0 :: v1 :: V)) with (v0 :: removelast (v1 :: V)). cbn [linked]. split; [left; split; reflexivity|]. apply IH.
  - split; [reflexivity|right]. rewrite removelast_length. cbn in *. lia.
Qed.
Lemma final_perm (A B : list mval) : Permutation A B -> final (fun _ => True) A B.
Proof.
  intros P. destruct A as [|a [|b A]]; cbn [final].
  - intros k z _ _. now apply shuffle_complete.
  - symmetry. now apply Permutation_length_1_inv.
  - intros k z _ _. now apply shuffle_complete.
Qed.
(** Any values can be given to the merged list of a single record. *)
Lemma side_any (V : list mval) : (1 <= length V)%nat -> forall A, (length V = 1 -> length A = 1)%nat -> (2 <= length V -> A = V)%nat ->
  exists U Y, side (fun _ => True) V U Y A /\ sized (length V) U Y A.
Proof.
  intros L A H1 H2. destruct (Nat.eq_dec (length V) 1) as [E|E].
  - exists [], []. split; [exact I|]. split; [rewrite E; now apply H1|]. left. auto.
  - rewrite (H2 ltac:(lia)). exists V, (removelast (tl V)). now apply side_keep; lia.
Qed.

(** ** [sort] *)
Lemma set_nth_perm {A} (d x : A) : forall i l, (i < length l)%nat -> Permutation (nth i l d :: set_nth i x l) (x :: l).
Proof.
  induction i as [|i IH]; intros [|y l] H; cbn in *; try lia; [apply perm_swap|].
  eapply Permutation_trans; [apply perm_swap|]. eapply Permutation_trans; [apply perm_skip, IH; lia|]. apply perm_swap.
Qed.
Lemma nth_set_nth {A} (d x : A) : forall i l k, nth k (set_nth i x l) d = if Nat.eqb k i && Nat.ltb i (length l) then x else nth k l d.
Proof.
  induction i as [|i IH]; intros [|y l] k; cbn [set_nth].
  - cbn. now rewrite andb_false_r.
  - destruct k; reflexivity.
  - cbn. now rewrite andb_false_r.
  - destruct k as [|k]; [reflexivity|]. cbn [nth length]. rewrite IH. reflexivity.
Qed.
Lemma swap_perm {A} (d : A) i j l : (i < length l)%nat -> (j < length l)%nat -> Permutation (swap d i j l) l.
Proof.
  intros Hi Hj. unfold swap. apply Permutation_cons_inv with (a := nth i l d).
  assert (E : nth i (set_nth j (nth i l d) l) d = nth i l d) by (rewrite nth_set_nth; destruct (Nat.eqb i j && Nat.ltb j (length l)); reflexivity).
  rewrite <- E at 1. eapply Permutation_trans; [apply set_nth_perm; rewrite set_nth_length; exact Hi|]. now apply set_nth_perm.
Qed.
Lemma nth_swap {A} (d : A) i j l k : (i < length l)%nat -> (j < length l)%nat ->
  nth k (swap d i j l) d = if Nat.eqb k i then nth j l d else if Nat.eqb k j then nth i l d else nth k l d.
Proof.
  intros Hi Hj. unfold swap. rewrite nth_set_nth, set_nth_length. apply Nat.ltb_lt in Hi, Hj. rewrite Hi, andb_true_r. destruct (Nat.eqb k i); [reflexivity|].
  rewrite nth_set_nth, Hj, andb_true_r. reflexivity.
Qed.
Notation ty l k := (atype (nth k l dval)).
Lemma sort_inner_ok t i : forall fuel (l : list mval) j s, (i < j)%nat -> (j <= s + 1)%nat -> (s < length l)%nat -> (s - j <= fuel)%nat ->
  (forall k, (i <= k < j)%nat -> ty l k = t) -> (forall k, (s < k < length l)%nat -> ty l k <> t) ->
  let l' := fst (sort_inner fuel t l j s) in let j' := snd (sort_inner fuel t l j s) in
  Permutation l' l /\ (j <= j')%nat /\ (j' <= length l)%nat /\ (forall k, (k <= i)%nat -> nth k l' dval = nth k l dval) /\
  (forall k, (i <= k < j')%nat -> ty l' k = t) /\ (forall k, (j' < k < length l)%nat -> ty l' k <> t).
Proof.
  induction fuel as [|fuel IH]; intros l j s Hij Hjs Hs Hf A B; cbn [sort_inner].
  - cbn [fst snd]. conj; auto; try lia. intros k Hk. apply B. lia.
  - destruct (Nat.ltb_spec j s) as [Hlt|Hge].
    + destruct (feqb t (atype (nth j l dval))) eqn:E.
      * apply feqb_true in E. destruct (IH l (Datatypes.S j) s) as [P [J1 [J2 [K1 [K2 K3]]]]]; auto; try lia.
        { intros k Hk. destruct (Nat.eq_dec k j) as [->|]; [now symmetry|]. apply A. lia. }
        conj; auto; lia.
      * assert (NE : atype (nth j l dval) <> t) by (intros Q; rewrite <- Q in E; rewrite (proj2 (feqb_true _ _) eq_refl) in E; discriminate E).
        assert (Ls : length (swap dval j s l) = length l) by apply swap_length.
        assert (Ns : forall k, nth k (swap dval j s l) dval = if Nat.eqb k j then nth s l dval else if Nat.eqb k s then nth j l dval else nth k l dval) by (intros k; apply nth_swap; lia).
        destruct (IH (swap dval j s l) j (pred s)) as [P [J1 [J2 [K1 [K2 K3]]]]]; rewrite ?Ls; auto; try lia.
        { intros k Hk. rewrite Ns. destruct (Nat.eqb_spec k j); [lia|]. destruct (Nat.eqb_spec k s); [lia|]. now apply A. }
        { intros k Hk. rewrite Ns. destruct (Nat.eqb_spec k j); [lia|]. destruct (Nat.eqb_spec k s); [exact NE|]. apply B. lia. }
        rewrite Ls in *. conj; auto.
        { eapply Permutation_trans; [exact P|]. apply swap_perm; lia. }
        { intros k Hk. rewrite K1 by lia. rewrite Ns. destruct (Nat.eqb_spec k j); [lia|]. destruct (Nat.eqb_spec k s); [lia|]. reflexivity. }
    + cbn [fst snd]. conj; auto; try lia. intros k Hk. apply B. lia.
Qed.
Lemma perm_tail_nth (l l' : list mval) i : Permutation l' l -> (forall k, (k <= i)%nat -> nth k l' dval = nth k l dval) -> (i < length l)%nat ->
  forall r, (i < r < length l)%nat -> exists r0, (i < r0 < length l)%nat /\ nth r l' dval = nth r0 l dval.
Proof.
  intros P A Hi r Hr.
  assert (L : length l' = length l) by now apply Permutation_length.
  assert (E : firstn (Datatypes.S i) l' = firstn (Datatypes.S i) l).
  { apply (nth_ext _ _ dval dval); [rewrite !firstn_length; lia|]. intros k Hk. rewrite firstn_length in Hk.
    assert (X : forall q : list mval, nth k (firstn (Datatypes.S i) q) dval = nth k q dval) by (intros q; rewrite <- (firstn_skipn (Datatypes.S i) q) at 2; destruct (Nat.lt_ge_cases k (length (firstn (Datatypes.S i) q))); [now rewrite app_nth1|]; rewrite firstn_length in *; rewrite !nth_overflow; auto; rewrite ?app_length, ?firstn_length, ?skipn_length; lia).
    rewrite !X. apply A. lia. }
  assert (P2 : Permutation (skipn (Datatypes.S i) l') (skipn (Datatypes.S i) l)).
  { apply (Permutation_app_inv_l (firstn (Datatypes.S i) l)). rewrite <- E at 1. rewrite !firstn_skipn. exact P. }
  assert (IN : In (nth r l' dval) (skipn (Datatypes.S i) l)).
  { apply (Permutation_in _ P2). rewrite <- (firstn_skipn (Datatypes.S i) l') at 1. rewrite app_nth2 by (rewrite firstn_length; lia). apply nth_In. rewrite skipn_length, firstn_length. lia. }
  apply (In_nth _ _ dval) in IN. destruct IN as [q [Hq Eq]]. rewrite skipn_length in Hq. exists (Datatypes.S i + q)%nat. split; [lia|]. rewrite <- Eq.
  rewrite <- (firstn_skipn (Datatypes.S i) l) at 2. rewrite app_nth2 by (rewrite firstn_length; lia). f_equal. rewrite firstn_length. lia.
Qed.
Definition upto (l : list mval) (i : nat) : Prop := forall p q r, (p < i)%nat -> (p < q < r)%nat -> (r < length l)%nat -> ty l p = ty l r -> ty l q = ty l p.
Lemma sort_outer_ok : forall fuel (l : list mval) i, (length l - i <= fuel)%nat -> upto l i -> Permutation (sort_outer fuel l i) l /\ upto (sort_outer fuel l i) (length l).
Proof.
  induction fuel as [|fuel IH]; intros l i Hf U; cbn [sort_outer].
  - split; [reflexivity|]. intros p q r Hp Hq Hr. apply U; lia.
  - destruct (Nat.ltb_spec i (length l)) as [Hi|Hi]; [|split; [reflexivity|]; intros p q r Hp Hq Hr; apply U; lia].
    set (t := atype (nth i l dval)).
    destruct (sort_inner_ok t i (length l) l (Datatypes.S i) (pred (length l))) as [P [J1 [J2 [K1 [K2 K3]]]]]; try lia.
    { intros k Hk. replace k with i by lia. reflexivity. }
    destruct (sort_inner (length l) t l (Datatypes.S i) (pred (length l))) as [l' j]. cbn [fst snd] in *.
    assert (L : length l' = length l) by now apply Permutation_length.
    destruct (IH l' j) as [P' U']; [lia| |split; [eapply Permutation_trans; eauto|now rewrite <- L]].
    intros p q r Hp Hq Hr E. rewrite L in Hr.
    assert (R : ty l' r = t -> (i <= p \/ ty l' p = t)%nat -> ty l' q = t \/ (q < i)%nat).
    { intros Er _. assert (r <= j)%nat by (destruct (Nat.le_gt_cases r j); [assumption|]; exfalso; now apply (K3 r); [lia|]). destruct (Nat.lt_ge_cases q i); [now right|left]. apply K2. lia. }
    destruct (Nat.le_gt_cases i p) as [Hip|Hip].
    + assert (Ep : ty l' p = t) by (apply K2; lia). rewrite Ep in *. destruct R as [?|?]; auto; lia.
    + rewrite (K1 p) in * by lia.
      destruct (Nat.le_gt_cases r i) as [Hri|Hri]; [rewrite (K1 r) in E by lia; rewrite (K1 q) by lia; apply (U p q r); auto; lia|].
      destruct (perm_tail_nth l l' i P K1 Hi r) as [r0 [Hr0 Er0]]; [lia|]. rewrite Er0 in E.
      assert (Et : ty l p = t) by (symmetry; apply (U p i r0); auto; lia).
      destruct (Nat.lt_ge_cases q i) as [Hqi|Hqi]; [rewrite (K1 q) by lia; apply (U p q r0); auto; lia|].
      destruct R as [X|X]; [rewrite Er0; congruence|now right|congruence|lia].
Qed.
Lemma sort_perm (l : list mval) : Permutation (sort l) l.
Proof. apply (sort_outer_ok (length l) l 0); [lia|]. intros p q r Hp. lia. Qed.
Lemma sort_grouped (l : list mval) : grouped (sort l).
Proof.
  destruct (sort_outer_ok (length l) l 0) as [P U]; [lia|intros p q r Hp; lia|]. fold (sort l) in *. intros i j k u v x Hijk Ei Ej Ek E.
  apply nth_error_nth with (d := dval) in Ei as Ei'. apply nth_error_nth with (d := dval) in Ej as Ej'. apply nth_error_nth with (d := dval) in Ek as Ek'.
  assert (Lk : (k < length (sort l))%nat) by (apply nth_error_Some; congruence). rewrite <- Ei', <- Ej', <- Ek' in *. apply (U i j k); auto. rewrite <- (Permutation_length P). lia.
Qed.

(** ** [merge] *)
Definition fdec : forall a b : F, {a = b} + {a <> b} := fun a b => f_dec a b.
Definition types (l : list mval) : list F := nodup fdec (map (@atype F) l).
Definition canon (l : list mval) : list mval := map (fun t => mkVal (ftotal t l) t) (types l) ++ repeat dval (length l - length (types l)).
Lemma types_le (l : list mval) : (length (types l) <= length l)%nat.
Proof. unfold types. rewrite <- (map_length (@atype F) l). apply NoDup_incl_length; [apply NoDup_nodup|]. intros x Hx. now apply nodup_In in Hx. Qed.
Lemma grouped_tail v (l : list mval) : grouped (v :: l) -> grouped l.
Proof. intros G i j k u x y H A B C. apply (G (Datatypes.S i) (Datatypes.S j) (Datatypes.S k) u x y); auto; lia. Qed.
Lemma grouped_join prev v (l : list mval) a : atype v = atype prev -> grouped (prev :: v :: l) -> grouped (mkVal a (atype v) :: l).
Proof.
  intros E G i j k u x y H A B C Q. destruct i as [|i].
  - cbn in A. injection A as <-. cbn [atype] in Q. cbn [atype]. apply (G 1 (Datatypes.S j) (Datatypes.S k) v x y)%nat; auto; try lia; [destruct j; [lia|exact B]|destruct k; [lia|exact C]].
  - apply (G (2 + i) (1 + j) (1 + k) u x y)%nat; auto; try lia; [destruct j; [lia|exact B]|destruct k; [lia|exact C]].
Qed.
Lemma ftotal_absent t (l : list mval) : ~ In t (map (@atype F) l) -> ftotal t l = 0.
Proof.
  induction l as [|v l IH]; intros H; cbn in *; [reflexivity|]. destruct (feqb t (atype v)) eqn:E; [apply feqb_true in E; exfalso; apply H; left; now symmetry|]. rewrite IH by tauto. ring.
Qed.
Lemma types_cons_in v (l : list mval) : In (atype v) (map (@atype F) l) -> types (v :: l) = types l.
Proof. intros H. unfold types. cbn [map nodup]. destruct (in_dec fdec (atype v) (map (@atype F) l)); [reflexivity|contradiction]. Qed.
Lemma types_cons_out v (l : list mval) : ~ In (atype v) (map (@atype F) l) -> types (v :: l) = atype v :: types l.
Proof. intros H. unfold types. cbn [map nodup]. destruct (in_dec fdec (atype v) (map (@atype F) l)); [contradiction|reflexivity]. Qed.
Lemma last_shift {A} (x d : A) : forall l, last (x :: l) d = last l x.
Proof. intros l. revert x d. induction l as [|y l IH]; intros x d; [reflexivity|]. change (last (x :: y :: l) d) with (last (y :: l) d). rewrite IH. symmetry. apply IH. Qed.
Lemma merge_canon : forall (l : list mval) prev, grouped (prev :: l) ->
  Permutation (snd (merge_loop prev l) ++ [last (fst (merge_loop prev l)) prev]) (canon (prev :: l)) /\
  linked prev l (snd (merge_loop prev l)) (fst (merge_loop prev l)).
Proof.
  induction l as [|v l IH]; intros prev G; cbn [merge_loop].
  - cbn [fst snd app last linked]. split; [|exact I]. unfold canon, types. cbn [map nodup in_dec length]. cbn. destruct prev as [a t]. cbn [atype amount ftotal]. rewrite (proj2 (feqb_true t t) eq_refl). replace (a + 0) with a by ring. reflexivity.
  - destruct (feqb (atype v) (atype prev)) eqn:E.
    + apply feqb_true in E. set (s := mkVal (amount prev + amount v) (atype v)). assert (Gs : grouped (s :: l)) by (apply (grouped_join prev); assumption).
      destruct (IH s Gs) as [P K]. destruct (merge_loop s l) as [i m]. cbn [fst snd] in *. split.
      * cbn [app]. rewrite last_shift. eapply Permutation_trans; [apply perm_skip, P|]. unfold canon.
        assert (T : types (prev :: v :: l) = types (s :: l)) by (rewrite types_cons_in by (left; exact E); reflexivity).
        rewrite T. assert (TL := types_le (s :: l)). cbn [length] in *. replace (Datatypes.S (Datatypes.S (length l)) - length (types (s :: l)))%nat with (Datatypes.S (Datatypes.S (length l) - length (types (s :: l)))) by lia.
        cbn [repeat]. change (mkVal 0 0) with (dval (F := F)).
        replace (map (fun t => mkVal (ftotal t (prev :: v :: l)) t) (types (s :: l))) with (map (fun t => mkVal (ftotal t (s :: l)) t) (types (s :: l))); [apply Permutation_middle|].
        apply map_ext. intros t. f_equal. cbn [ftotal s atype amount]. rewrite <- E. destruct (feqb t (atype v)); ring.
      * cbn [linked]. split; [|exact K]. right. unfold merged. conj; cbn; auto.
    + assert (NE : atype prev <> atype v) by (intros Q; rewrite Q, (proj2 (feqb_true _ _) eq_refl) in E; discriminate E).
      destruct (IH v (grouped_tail _ _ G)) as [P K]. destruct (merge_loop v l) as [i m]. cbn [fst snd] in *. split.
      * cbn [app]. rewrite last_shift. eapply Permutation_trans; [apply perm_skip, P|].
        assert (NI : ~ In (atype prev) (map (@atype F) (v :: l))).
        { cbn [map]. intros [Q|Q]; [now apply NE|]. apply in_map_iff in Q. destruct Q as [x [Ex Hx]]. apply In_nth_error in Hx. destruct Hx as [k Hk].
          apply NE. symmetry. apply (G 0 1 (2 + k) prev v x)%nat; auto; lia. }
        unfold canon. rewrite (types_cons_out prev) by exact NI. cbn [length map app]. replace (Datatypes.S (Datatypes.S (length l)) - Datatypes.S (length (types (v :: l))))%nat with (Datatypes.S (length l) - length (types (v :: l)))%nat by lia.
        assert (H0 : mkVal (ftotal (atype prev) (prev :: v :: l)) (atype prev) = prev).
        { change (ftotal (atype prev) (prev :: v :: l)) with ((if feqb (atype prev) (atype prev) then amount prev else 0) + ftotal (atype prev) (v :: l)).
          rewrite (ftotal_absent _ _ NI), (proj2 (feqb_true _ _) eq_refl). destruct prev; cbn. f_equal. ring. }
        rewrite H0. apply perm_skip. apply Permutation_app_tail.
        replace (map (fun t => mkVal (ftotal t (prev :: v :: l)) t) (types (v :: l))) with (map (fun t => mkVal (ftotal t (v :: l)) t) (types (v :: l))); [reflexivity|].
        apply map_ext_in. intros t Ht. f_equal. change (ftotal t (prev :: v :: l)) with ((if feqb t (atype prev) then amount prev else 0) + ftotal t (v :: l)).
        destruct (feqb t (atype prev)) eqn:Q; [|ring]. apply feqb_true in Q. subst t. exfalso. apply NI. unfold types in Ht. now apply nodup_In in Ht.
      * cbn [linked]. split; [|exact K]. left. split; reflexivity.
Qed.
Lemma canon_perm (a b : list mval) : Permutation a b -> Permutation (canon a) (canon b).
Proof.
  intros P. unfold canon. assert (T : Permutation (types a) (types b)).
  { apply NoDup_Permutation; [apply NoDup_nodup|apply NoDup_nodup|]. intros x. unfold types. rewrite !nodup_In. split; apply Permutation_in; [|apply Permutation_sym]; now apply Permutation_map. }
  rewrite (Permutation_length P), (Permutation_length T). apply Permutation_app_tail.
  eapply Permutation_trans; [apply Permutation_map, T|]. erewrite map_ext; [reflexivity|]. intros t. cbn. now rewrite (ftotal_perm t a b P).
Qed.
(** The prover's lists. *)
Lemma vals_ok (V : list mval) : (1 <= length V)%nat -> let '(U, Y, M) := vals (length V) (Some V) in side (fun _ => True) V U Y M /\ Permutation M (canon V).
Proof.
  intros L. unfold vals. destruct (Nat.eqb_spec (length V) 1) as [E|E].
  - split; [exact I|]. destruct V as [|v [|? ?]]; try discriminate E. apply (merge_canon [] v). intros i j k u x y H A B. destruct j as [|[|j]]; try discriminate B; lia.
  - assert (P := sort_perm V). assert (G := sort_grouped V). assert (LS := sort_length V). destruct (sort V) as [|s0 s]; [cbn in LS; lia|].
    destruct (merge_canon s s0 G) as [Q K]. destruct (merge_loop_length s s0) as [L1 L2]. unfold merged_of. destruct (merge_loop s0 s) as [i m]. cbn [fst snd] in *.
    assert (LD : last i dval = last i s0) by (destruct i as [|i0 i]; [cbn in *; lia|]; now rewrite !last_shift).
    split.
    + cbn [side]. split; [intros k z _ _; apply shuffle_complete; now apply Permutation_sym|]. apply linked_chain. rewrite removelast_last, last_last.
      rewrite <- (app_removelast_last dval); [exact K|]. intros ->. cbn in *. lia.
    + rewrite LD. eapply Permutation_trans; [exact Q|]. now apply canon_perm.
Qed.
Lemma canon_pad (a b : list mval) : (forall t, In t (map (@atype F) a) <-> In t (map (@atype F) b)) -> (forall t, ftotal t a = ftotal t b) -> (length a <= length b)%nat ->
  Permutation (canon a ++ repeat dval (length b - length a)) (canon b).
Proof.
  intros HT HF L. assert (T : Permutation (types a) (types b)) by (apply NoDup_Permutation; [apply NoDup_nodup|apply NoDup_nodup|]; intros x; unfold types; rewrite !nodup_In; apply HT).
  unfold canon. rewrite <- app_assoc, <- repeat_app. assert (TL := types_le a). rewrite (Permutation_length T) in *.
  replace (length a - length (types b) + (length b - length a))%nat with (length b - length (types b))%nat by lia. apply Permutation_app_tail.
  eapply Permutation_trans; [apply Permutation_map, T|]. erewrite map_ext; [reflexivity|]. intros t. cbn. now rewrite HF.
Qed.
Lemma same_types_ok (a b : list mval) : same_types a b = true <-> forall t, In t (map (@atype F) a) <-> In t (map (@atype F) b).
Proof.
  unfold same_types. rewrite andb_true_iff, !forallb_forall. assert (T : forall t (l : list mval), tmem t l = true <-> In t (map (@atype F) l)).
  { intros t l. unfold tmem. rewrite existsb_exists, in_map_iff. split; intros [x [A B]]; exists x; [apply feqb_true in B; auto|split; [exact B|]; apply feqb_true; now symmetry]. }
  split.
  - intros [A B] t. split; intros H; apply in_map_iff in H; destruct H as [x [<- Hx]]; apply T; auto.
  - intros H. split; intros x Hx; apply T, H, in_map, Hx.
Qed.
Lemma honest_rel (ins outs : list mval) : (1 <= length ins)%nat -> (1 <= length outs)%nat -> same_types ins outs = true -> (forall t, ftotal t ins = ftotal t outs) ->
  let '(U, Y, M) := vals (length ins) (Some ins) in let '(U', Y', M') := vals (length outs) (Some outs) in
  mixrel (fun _ => True) ins outs U Y M U' Y' M' (pads (length ins) (length outs)).
Proof.
  intros Ni No ST HT. pose proof (vals_ok ins Ni) as A. pose proof (vals_ok outs No) as B. destruct (vals (length ins) (Some ins)) as [[U Y] M], (vals (length outs) (Some outs)) as [[U' Y'] M'].
  destruct A as [A1 A2], B as [B1 B2]. split; [exact A1|]. split; [exact B1|]. apply final_perm. pose proof (proj1 (same_types_ok ins outs) ST) as TT. unfold padl, padr, pads. destruct (Nat.ltb_spec (length ins) (length outs)) as [L|L].
  - replace (Nat.max (length ins) (length outs) - Nat.min (length ins) (length outs))%nat with (length outs - length ins)%nat by lia.
    eapply Permutation_trans; [apply Permutation_app_tail, A2|]. eapply Permutation_trans; [apply canon_pad; auto; lia|]. now apply Permutation_sym.
  - replace (Nat.max (length ins) (length outs) - Nat.min (length ins) (length outs))%nat with (length ins - length outs)%nat by lia.
    eapply Permutation_trans; [exact A2|]. apply Permutation_sym. eapply Permutation_trans; [apply Permutation_app_tail, B2|]. apply canon_pad; auto. intros t. symmetry. apply TT.
Qed.
End Lemmas.

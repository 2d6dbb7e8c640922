(** C50: tracing. *)
From Coq Require Import List NArith ZArith Bool Lia ZifyBool ZifyNat ZifyN Field Ring.
From Verif Require Import Base Field UtilsModel XfrModel XfrSpec XfrProofs SigmaModel SigmaSpec SigmaProofs SigmaProps NoteModel KeyModel HybModel KeySpec KeyProofs HybProofs HybProps RecordModel RecordSpec TraceModel TraceSpec TraceProofs.
Import ListNotations.
Local Open Scope N_scope.

Lemma mapM_map {A B T} (f : B -> res T) (g : A -> B) l : mapM f (map g l) = mapM (fun x => f (g x)) l.
Proof. induction l as [|x l IH]; [reflexivity|]. cbn. now rewrite IH. Qed.
Lemma mapM_forall2 {A T} (f : A -> res T) (g : A -> T) l : Forall (fun x => f x = Ok (g x)) l -> mapM f l = Ok (map g l).
Proof. induction 1 as [|x l E _ IH]; [reflexivity|]. cbn. now rewrite E, IH. Qed.
Lemma chunks4_words l : Forall (fun w => length w = 4%nat) l -> chunks4 (concat l) = l.
Proof.
  assert (K : forall l fuel, Forall (fun w => length w = 4%nat) l -> (length l <= fuel)%nat -> chunks_fuel fuel (concat l) = l).
  { clear l. induction l as [|w l IH]; intros fuel F Hf; [now destruct fuel|]. apply Forall_cons_iff in F. destruct F as [Hw F]. destruct fuel as [|fuel]; [cbn in Hf; lia|].
    cbn [chunks_fuel concat]. assert (Nw : w ++ concat l <> []) by (destruct w; [discriminate|intros Q; discriminate]). destruct (w ++ concat l) as [|y q] eqn:Eq; [contradiction|]. rewrite <- Eq.
    rewrite (firstn_app_len 4 w _ Hw), (skipn_app_len 4 w _ Hw). f_equal. apply IH; [exact F|]. cbn in Hf. lia. }
  intros F. unfold chunks4. apply K; [exact F|]. clear K. induction F as [|w l Hw _ IH]; [reflexivity|]. cbn [concat length]. rewrite app_length. lia.
Qed.

Lemma flat_map_ext_in {A T} (f g : A -> list T) l : (forall x, In x l -> f x = g x) -> flat_map f l = flat_map g l.
Proof. induction l as [|x l IH]; intros K; [reflexivity|]. cbn. rewrite (K x (or_introl eq_refl)), IH; [reflexivity|]. intros y Hy. apply K. now right. Qed.

Fixpoint mapi {A T} (k : nat) (f : nat -> A -> T) (l : list A) : list T := match l with [] => [] | x :: l' => f k x :: mapi (S k) f l' end.
Lemma mapi_length {A T} (f : nat -> A -> T) l : forall k, length (mapi k f l) = length l.
Proof. induction l as [|x l IH]; intros k; [reflexivity|]. cbn. now rewrite IH. Qed.
Lemma nth_mapi {A T} (f : nat -> A -> T) l : forall k i, nth_error (mapi k f l) i = option_map (f (k + i)%nat) (nth_error l i).
Proof.
  induction l as [|x l IH]; intros k [|i]; try reflexivity; cbn; [now rewrite Nat.add_0_r|]. rewrite IH. now replace (S k + i)%nat with (k + S i)%nat by lia.
Qed.
Lemma nth_firstn_lt {A} (l : list A) : forall n i, (i < n)%nat -> nth_error (firstn n l) i = nth_error l i.
Proof. induction l as [|x l IH]; intros [|n] [|i] Hi; try reflexivity; try lia. cbn. apply IH. lia. Qed.
Lemma nth_skipn {A} (l : list A) : forall n i, nth_error (skipn n l) i = nth_error l (n + i)%nat.
Proof. induction l as [|x l IH]; intros [|n] i; try reflexivity; [now destruct i|]. cbn. apply IH. Qed.
Lemma nth_combine {A C} (l : list A) (l' : list C) : forall i, nth_error (combine l l') i = match nth_error l i, nth_error l' i with Some a, Some b => Some (a, b) | _, _ => None end.
Proof. revert l'. induction l as [|x l IH]; intros [|y l'] [|i]; try reflexivity; cbn; [now destruct (nth_error l i)|apply IH]. Qed.
Lemma flat_map_one {A T} (f : A -> list T) (l : list A) : forall i x, nth_error l i = Some x -> (forall k y, nth_error l k = Some y -> k <> i -> f y = []) -> flat_map f l = f x.
Proof.
  induction l as [|a l IH]; intros [|i] x Hx K; try discriminate; cbn [flat_map].
  - injection Hx as ->. replace (flat_map f l) with (@nil T); [apply app_nil_r|]. symmetry. assert (Q : forall y, In y l -> f y = []).
    { intros y Hy. apply In_nth_error in Hy. destruct Hy as [k Hk]. apply (K (S k) y); [exact Hk|lia]. }
    clear -Q. induction l as [|y l IH]; [reflexivity|]. cbn. rewrite Q by now left. apply IH. intros z Hz. apply Q. now right.
  - rewrite (K 0%nat a eq_refl) by lia. apply (IH i); [exact Hx|]. intros k y Hk Hn. apply (K (S k)); [exact Hk|lia].
Qed.
Lemma filter_one {A} (f : A -> bool) (l : list A) : forall i x, nth_error l i = Some x -> f x = true -> (forall k y, nth_error l k = Some y -> k <> i -> f y = false) -> filter f l = [x].
Proof.
  intros i x Hx Hf K. assert (E : filter f l = flat_map (fun y => if f y then [y] else []) l) by (clear; induction l as [|y l IH]; [reflexivity|]; cbn; rewrite IH; now destruct (f y)).
  rewrite E, (flat_map_one _ l i x Hx); [now rewrite Hf|]. intros k y Hk Hn. now rewrite (K k y Hk Hn).
Qed.

Section Trace.
Context (H : hsuite) (E : pgroup) (O : oracles E) (as_scalar : N -> PF E).
Context {BF : Field} {BG : Mod BF} (BB : BG) (IP IDP CM : Type).
Context (ac_verify : IP -> BG -> CM -> list (BG * BG) -> IDP -> res unit).
Context (chal : oracle (F := PF E) (G := PG E)) (t0 : transcript (F := PF E) (G := PG E)).
Local Notation policy := (policy E (BG := BG) IP).
Local Notation tmemo := (tmemo E (BG := BG)).
Local Notation arecord := (arecord E (BG := BG) IP IDP).
Local Notation tbody := (tbody E O (BG := BG) IDP).
Local Notation npol := (npol E (BG := BG) IP CM).
Local Notation hrec := (hrec E (BG := BG) IP IDP).
Local Notation B := (gB E). Local Notation Bb := (gBb E).
Local Notation honest_record := (honest_record H E as_scalar (BG := BG) IP IDP).
Local Notation records := (map (h_rec E (BG := BG) IP IDP)).
Local Notation policies := (map (h_policies E (BG := BG) IP IDP)).
Local Notation proofs := (asset_amount_tracing_proofs E as_scalar IP IDP chal t0).
Local Notation verify_tracing := (batch_verify_tracing E O IP IDP CM ac_verify chal t0).
Local Notation verify_transfers := (batch_verify_traced_bodies E O as_scalar IP IDP CM ac_verify chal t0).
Local Notation trace := (trace_assets H E O as_scalar BB IDP).
Local Notation carries := (carries E O IP IDP).
Local Notation slot_at := (slot_at E O IP IDP CM).
Local Notation same_but_memos := (same_but_memos E O IDP).
Local Notation body_same := (body_same E O IP IDP CM).
Local Notation keygen := (tk_generate H E BB).

Add Field TFE : (f_th (PF E)).
Add Field TFB : (f_th BF).

(** ** Honest transfers *)
(** The records made by the library from openings and templates are honest. *)
Theorem C50_library_records :
  (forall es o ps (r : arecord), consistent E as_scalar o -> ar_traced_no_identity H E as_scalar IP IDP es o ps = Ok r ->
     honest_record (mkHr E IP IDP r es (map (fun _ => []) ps)) /\ ar_policies E IP IDP r = ps) /\
  (forall open_cred es o ps (r : arecord), consistent E as_scalar o -> ar_traced H E as_scalar IP IDP open_cred es o ps = Ok r ->
     exists attrs, honest_record (mkHr E IP IDP r es attrs) /\ ar_policies E IP IDP r = ps) /\
  (forall o, consistent E as_scalar o -> honest_record (mkHr E IP IDP (ar_untraced E (BG := BG) IP IDP o) (fun _ => []) [])).
Proof.
  split; [|split].
  - intros es o ps r Hc. unfold ar_traced_no_identity. destruct (existsb _ ps); [discriminate|]. intros Q. apply Ok_inj in Q. subst r. split; [|reflexivity].
    split; [exact Hc|]. split; [cbn [h_attrs h_policies h_rec ar_policies]; now rewrite map_length|reflexivity].
  - intros oc es o ps r Hc. unfold ar_traced. intros Q. apply bind_inv in Q. destruct Q as [l [Q1 Q]]. apply Ok_inj in Q. subst r. apply mapM_ok in Q1. apply Forall2_len in Q1.
    exists (map fst l). split; [|reflexivity]. split; [exact Hc|]. split; [cbn [h_attrs h_policies h_rec ar_policies]; rewrite map_length; congruence|reflexivity].
  - intros o Hc. split; [exact Hc|]. split; reflexivity.
Qed.
(** The tracing proofs of honest records can be made. *)
Theorem C50_honest_proofs_made :
  forall gs ins outs, Forall honest_record (ins ++ outs) -> exists ps, proofs gs (records ins) (records outs) = Ok ps.
Proof.
  intros gs ins outs Hh.
  set (b := mkTb E O IDP (mkXbody E O (map (h_bar E IP IDP) ins) (map (h_bar E IP IDP) outs) (NoProof E O)) [] [] [] (map (fun x => ar_memos E IP IDP (h_rec E IP IDP x)) (ins ++ outs)) []).
  destruct (honest_map H E O as_scalar BB IP IDP CM ac_verify b ins outs Hh) as [m [_ Hm]]; [repeat split|].
  destruct (honest_keys_proofs H E as_scalar IP IDP chal t0 _ _ Hm gs) as [ps [iss [P _]]]. now exists ps.
Qed.
Definition honest_transfer (x : tbody * npol) : Prop :=
  np_valid E IP CM (snd x) = true /\ verify_identities E O IP IDP CM ac_verify x = Ok tt /\
  exists gs ins outs, Forall honest_record (ins ++ outs) /\ carries (fst x) ins outs /\
    np_in E IP CM (snd x) = policies ins /\ np_out E IP CM (snd x) = policies outs /\
    proofs gs (records ins) (records outs) = Ok (tb_tproofs E O IDP (fst x)).
(** Honest transfers pass the tracing checks, alone and in a batch, whatever the
    verifier draws. *)
Theorem C50_honest_transfers_accepted :
  forall l g, Forall honest_transfer l -> verify_tracing g (map fst l) (map snd l) = Ok tt.
Proof.
  intros l g Hl. unfold batch_verify_tracing. rewrite !map_length, Nat.eqb_refl. cbn [negb].
  assert (V : forallb (np_valid E IP CM) (map snd l) = true).
  { apply forallb_forall. intros np Hi. apply in_map_iff in Hi. destruct Hi as [x [<- Hi]]. rewrite Forall_forall in Hl. now destruct (Hl x Hi). }
  rewrite V. cbn [negb].
  assert (A : batch_verify_asset_tracing E O IP IDP chal t0 g (map fst l) (map (np_in E IP CM) (map snd l)) (map (np_out E IP CM) (map snd l)) = Ok tt).
  { unfold batch_verify_asset_tracing. rewrite !map_map, !combine_map, mapM_map.
    assert (M : exists maps isss, mapM (fun x => body_map E O IP IDP (fst x) (np_in E IP CM (snd x)) (np_out E IP CM (snd x))) l = Ok maps /\
                mapM (body_instances E) maps = Ok isss /\ Forall (honest_instance B Bb chal t0) (concat isss)).
    { clear V. induction Hl as [|[b np] l [_ [_ [gs [ins [outs [Hh [Hc [Ei [Eo Hp]]]]]]]]] _ [maps [isss [M1 [M2 M3]]]]]; [exists [], []; repeat split; constructor|].
      cbn [fst snd] in *. destruct (honest_map H E O as_scalar BB IP IDP CM ac_verify b ins outs Hh Hc) as [m [C1 C2]].
      destruct (honest_keys_proofs H E as_scalar IP IDP chal t0 _ _ C2 gs) as [ps [iss [K1 [K2 [K3 K4]]]]]. unfold asset_amount_tracing_proofs in Hp. rewrite K1 in Hp. apply Ok_inj in Hp.
      exists ((m, ps) :: maps), (iss :: isss). cbn [mapM fst snd]. unfold body_map. rewrite Ei, Eo, C1. cbn [bind]. rewrite <- Hp, K2, Nat.eqb_refl. cbn [negb bind].
      unfold body_map in M1. rewrite M1. cbn [rmap]. split; [reflexivity|]. cbn [mapM]. rewrite K3, M2. cbn [bind rmap]. split; [reflexivity|]. cbn [concat]. apply Forall_app. now split. }
    destruct M as [maps [isss [M1 [M2 M3]]]]. rewrite M1. cbn [bind]. rewrite M2. cbn [bind]. now apply C28_honest_accepted. }
  rewrite A. cbn [bind]. rewrite combine_map. rewrite (mapM_forall2 _ (fun _ => tt)); [reflexivity|].
  apply Forall_forall. intros [b np] Hi. apply in_map_iff in Hi. destruct Hi as [x [<- Hi]]. rewrite Forall_forall in Hl. destruct (Hl x Hi) as [_ [I _]]. now destruct x.
Qed.

(** ** What the tracer gets *)
Lemma enc_dec (a : PF E) k v x : ek_rec E (BG := BG) k = smul a B -> elgamal_partial_decrypt (enc_rec E k v x) a = smul v B.
Proof. intros Ek. unfold elgamal_partial_decrypt, enc_rec, elgamal_encrypt. rewrite Ek. cbn [fst snd]. module_eq. Qed.
Definition info_ok (ai : option (N * N * PF E * PF E)) (ti : option (N * PF E)) (attrs : list (N * (BG * BG))) : Prop :=
  match ai with Some (lo, hi, _, _) => lo < 2 ^ 32 /\ hi < 2 ^ 32 | None => True end /\
  match ti with Some (t, _) => is_type t | None => True end /\ Forall (fun x => fst x < 2 ^ 32) attrs.
Lemma decrypt_new (a : PF E) (b : BF) x e ai ti attrs :
  hsuite_ok H -> clamped x -> bytes32 e -> info_ok ai ti attrs ->
  Forall (fun y => exists r, encrypts BB (smul b BB) (snd y) (fofN (fst y)) r) attrs ->
  tm_decrypt H E as_scalar BB (tm_new H E as_scalar e (tk_enc E (keygen a b x)) ai ti attrs) (tk_dec E (keygen a b x)) =
  Ok (match ai with Some (lo, hi, _, _) => Some (lo + hi * 2 ^ 32) | None => None end, match ti with Some (t, _) => Some t | None => None end, map fst attrs).
Proof.
  intros HH Hx He [Ia [It Ix]] Hattr. unfold tm_decrypt. cbn [tk_enc tk_dec keygen].
  assert (Ek : ek_rec E (BG := BG) (mkEk E (smul a B) (smul b BB) (x_pk H x)) = smul a B) by reflexivity.
  set (k := mkEk E (smul a B) (smul b BB) (x_pk H x)) in *.
  assert (P : hybrid_decrypt_x H (tm_info E (tm_new H E as_scalar e k ai ti attrs)) (dk_lock E (mkDk E a b x)) = tm_plain E ai ti attrs).
  { cbn [tm_new tm_info dk_lock k ek_lock]. apply (C46_hybrid_x25519_round_trip H HH e x _ He Hx). }
  rewrite P. cbn [dk_rec dk_attr].
  assert (A1 : tm_amount_part E (tm_new H E as_scalar e k ai ti attrs) a (tm_plain E ai ti attrs) =
     Ok (match ai with Some (lo, hi, _, _) => Some (lo + hi * 2 ^ 32) | None => None end, tm_plain E None ti attrs)).
  { unfold tm_amount_part, verify_amount. destruct ai as [[[[lo hi] bl] bh]|]; cbn [tm_new tm_amount]; [|reflexivity]. destruct Ia as [Il Ih].
    unfold tm_plain. rewrite <- !app_assoc. rewrite !app_length, !be_bytes_length.
    replace (Nat.ltb (4 + (4 + _)) 8) with false by (symmetry; apply Nat.ltb_ge; lia). cbv zeta.
    rewrite (firstn_app_len 4 (be_bytes 4 lo)) by apply be_bytes_length. rewrite (skipn_app_len 4 (be_bytes 4 lo)) by apply be_bytes_length.
    rewrite (firstn_app_len 4 (be_bytes 4 hi)) by apply be_bytes_length. rewrite !be_value_bytes by assumption.
    rewrite u64_pair_spec. replace ((lo + hi * 2 ^ 32) mod 2 ^ 32) with lo by (rewrite N.mod_add by discriminate; now rewrite N.mod_small).
    replace ((lo + hi * 2 ^ 32) / 2 ^ 32) with hi by (rewrite N.div_add by discriminate; now rewrite N.div_small).
    rewrite !(enc_dec a k _ _ Ek). destruct (meqb_spec (smul (fofN lo) B) (smul (fofN lo) B)); [|contradiction]. destruct (meqb_spec (smul (fofN hi) B) (smul (fofN hi) B)); [|contradiction].
    cbn [negb orb bind]. rewrite app_assoc. rewrite (skipn_app_len 8) by (rewrite app_length, !be_bytes_length; reflexivity). reflexivity. }
  rewrite A1. cbn [bind fst snd].
  assert (A2 : tm_type_part E as_scalar (tm_new H E as_scalar e k ai ti attrs) a (tm_plain E None ti attrs) =
     Ok (match ti with Some (t, _) => Some t | None => None end, tm_plain E None None attrs)).
  { unfold tm_type_part, verify_asset_type. destruct ti as [[t tb]|]; cbn [tm_new tm_type]; [|reflexivity].
    unfold tm_plain. cbn [app]. rewrite app_length, be_bytes_length.
    replace (Nat.ltb (32 + _) 32) with false by (symmetry; apply Nat.ltb_ge; lia). cbv zeta.
    rewrite (firstn_app_len 32 (be_bytes 32 t)) by apply be_bytes_length. rewrite (skipn_app_len 32 (be_bytes 32 t)) by apply be_bytes_length.
    rewrite be_value_bytes by exact It. rewrite (enc_dec a k _ _ Ek). destruct (meqb_spec (smul (as_scalar t) B) (smul (as_scalar t) B)); [|contradiction]. reflexivity. }
  rewrite A2. cbn [bind fst snd tm_new tm_attrs]. unfold tm_plain. cbn [app].
  assert (W : flat_map (fun y : N * (BG * BG) => be_bytes 4 (fst y)) attrs = concat (map (fun y => be_bytes 4 (fst y)) attrs)) by apply flat_map_concat_map.
  unfold act in *. rewrite W. assert (F4 : Forall (fun w => length w = 4%nat) (map (fun y : N * (BG * BG) => be_bytes 4 (fst y)) attrs)).
  { apply Forall_forall. intros w Hw. apply in_map_iff in Hw. destruct Hw as [y [<- _]]. apply be_bytes_length. }
  assert (LW : length (concat (map (fun y : N * (BG * BG) => be_bytes 4 (fst y)) attrs)) = (length attrs * 4)%nat).
  { clear. induction attrs as [|y l IH]; [reflexivity|]. cbn [map concat]. rewrite app_length, IH, be_bytes_length. cbn [length]. lia. }
  rewrite LW, map_length, Nat.ltb_irrefl. rewrite (chunks4_words _ F4), mapM_map. rewrite (mapM_forall2 _ (fun y => fst y)).
  2:{ revert Ix. apply Forall_impl. intros y Hy. unfold u8_be_slice_to_u32, u8_be_slice. rewrite be_bytes_length. cbn [Nat.eqb]. now rewrite be_value_bytes. }
  cbn [bind]. unfold verify_identity_attributes. cbn [tm_new tm_attrs]. rewrite !map_length, Nat.eqb_refl. cbn [negb bind].
  assert (F : forallb (fun z => z) (map (fun ca => meqb (elgamal_partial_decrypt (fst ca) b) (smul (fofN (snd ca)) BB)) (combine (map snd attrs) (map fst attrs))) = true).
  { clear -Hattr. induction Hattr as [|[v [c1 c2]] l [r Er] _ IH]; [reflexivity|]. cbn [map combine forallb fst snd]. rewrite IH, andb_true_r. cbn [fst snd] in Er. unfold encrypts in Er. injection Er as -> ->.
    destruct (meqb_spec (elgamal_partial_decrypt (smul r BB, madd (smul (fofN v) BB) (smul r (smul b BB))) b) (smul (fofN v) BB)) as [_|N]; [reflexivity|].
    exfalso. apply N. unfold elgamal_partial_decrypt. cbn [fst snd]. module_eq. }
  match goal with |- (if ?x then _ else _) = _ => replace x with true by (symmetry; exact F) end. reflexivity.
Qed.

Lemma ek_eqb_spec (a b : enc_keys E (BG := BG)) : reflect (a = b) (ek_eqb E a b).
Proof.
  destruct a as [a1 a2 a3], b as [b1 b2 b3]. unfold ek_eqb. cbn [ek_rec ek_attr ek_lock]. destruct (meqb_spec a1 b1) as [->|N]; [|constructor; congruence].
  destruct (meqb_spec a2 b2) as [->|N]; [|constructor; congruence]. destruct (bytes_eqb_spec a3 b3) as [->|N]; constructor; congruence.
Qed.
(** One honest memo: its values when its policy traces assets or the record is
    transparent; an error when the policy only traces the identity. *)
Lemma trace_new (a : PF E) (b : BF) x e (o : oar E) (p : policy) attrs :
  hsuite_ok H -> clamped x -> bytes32 e -> consistent E as_scalar o -> is_type (o_type E o) -> p_keys E IP p = tk_enc E (keygen a b x) ->
  Forall (fun y => fst y < 2 ^ 32 /\ exists r, encrypts BB (ek_attr E (p_keys E IP p)) (snd y) (fofN (fst y)) r) attrs ->
  trace_one H E as_scalar BB (tk_dec E (keygen a b x)) (o_bar E o,
    tm_new H E as_scalar e (p_keys E IP p) (amount_info E IP p (amount_conf E (o_bar E o)) (o_amount E o) (o_blind_lo E o, o_blind_hi E o))
      (type_info E IP p (type_conf E (o_bar E o)) (o_type E o) (o_type_blind E o)) attrs) =
  if p_asset E IP p || negb (hidden E (o_bar E o)) then Ok (o_amount E o, o_type E o, map fst attrs, b_pk (o_bar E o)) else Err.
Proof.
  intros HH Hx He [Hu [Ca Ct]] Hty Ep Hattr. unfold trace_one. rewrite Ep in *.
  rewrite decrypt_new; [|assumption..| |].
  - cbn [bind fst snd]. destruct o as [[am ty pk] av bl bh t tb]. cbn [o_bar o_amount o_blind_lo o_blind_hi o_type o_type_blind b_amount b_type b_pk] in *. rewrite hidden_conf.
    assert (Hr : av mod 2 ^ 32 + av / 2 ^ 32 * 2 ^ 32 = av) by (rewrite N.mul_comm, N.add_comm; symmetry; apply N.div_mod; discriminate).
    unfold amount_info, type_info, amount_conf, type_conf. cbn [b_amount b_type].
    destruct Ca as [[-> _]| ->], Ct as [[-> _]| ->], (p_asset E IP p); cbn [andb orb negb tm_new tm_amount tm_type get_amount get_asset_type bind]; rewrite ?u64_pair_spec; cbn [tm_new tm_amount tm_type bind get_amount get_asset_type]; rewrite ?Hr; reflexivity.
  - unfold info_ok, amount_info, type_info. split; [|split].
    + destruct (p_asset E IP p && amount_conf E (o_bar E o)); [|exact I]. rewrite u64_pair_spec. split; [apply N.mod_lt; discriminate|]. apply N.div_lt_upper_bound; [discriminate|]. exact Hu.
    + destruct (p_asset E IP p && type_conf E (o_bar E o)); [exact Hty|exact I].
    + revert Hattr. apply Forall_impl. intros y Hy. apply Hy.
  - revert Hattr. apply Forall_impl. intros y [_ Hy]. exact Hy.
Qed.

(** The slots of a tracer in honest records, with the outcome of each. *)
Definition outcome (k : enc_keys E (BG := BG)) (x : hrec) : list (res (N * N * list N * N)) :=
  let o := ar_open E IP IDP (h_rec E IP IDP x) in
  flat_map (fun pa => if ek_eqb E (p_keys E IP (fst pa)) k
                      then [if p_asset E IP (fst pa) || negb (hidden E (o_bar E o)) then Ok (o_amount E o, o_type E o, map fst (snd pa), b_pk (o_bar E o)) else Err] else [])
    (combine (h_policies E IP IDP x) (h_attrs E IP IDP x)).
Lemma record_outcome (a : PF E) (b : BF) sx (x : hrec) :
  hsuite_ok H -> clamped sx -> honest_record x -> honest_attrs E BB IP IDP x -> honest_draws E IP IDP x ->
  map (trace_one H E as_scalar BB (tk_dec E (keygen a b sx)))
    (map (fun m => (h_bar E IP IDP x, m)) (filter (fun m => ek_eqb E (tm_key E m) (tk_enc E (keygen a b sx))) (ar_memos E IP IDP (h_rec E IP IDP x)))) =
  outcome (tk_enc E (keygen a b sx)) x.
Proof.
  intros HH Hx [Hc [Hl Hm]] Ha [Hty Hd]. rewrite Hm. unfold outcome, honest_attrs, h_bar in *. set (o := ar_open E IP IDP (h_rec E IP IDP x)) in *. clear Hm Hl.
  assert (Hes : forall n, bytes32 (h_es E IP IDP x n)) by exact Hd. clear Hd. generalize dependent (h_es E IP IDP x). revert Ha. generalize (h_policies E IP IDP x) as ps. generalize (h_attrs E IP IDP x) as attrs. clearbody o. clear x.
  intros attrs ps Ha. induction Ha as [|p al ps attrs Hp _ IH]; intros es Hes; [reflexivity|]. cbn [tracer_memos combine flat_map filter fst snd].
  assert (Tk : forall e (k : enc_keys E (BG := BG)) ai ti at', tm_key E (tm_new H E as_scalar e k ai ti at') = k) by reflexivity.
  rewrite Tk. destruct (ek_eqb_spec (p_keys E IP p) (tk_enc E (keygen a b sx))) as [Ek|Nk].
  - cbn [map app]. f_equal; [|apply IH; intros n; apply Hes]. apply trace_new; auto.
  - cbn [app]. apply IH. intros n. apply Hes.
Qed.
Lemma mapM_outcomes {A T} (f : A -> res T) l : mapM f l = mapM (fun r => r) (map f l).
Proof. rewrite mapM_map. reflexivity. Qed.
Lemma find_carried (b : tbody) ins outs k : carries b ins outs ->
  find_tracing_memos E O IDP b k =
  Ok (flat_map (fun x => map (fun m => (h_bar E IP IDP x, m)) (filter (fun m => ek_eqb E (tm_key E m) k) (ar_memos E IP IDP (h_rec E IP IDP x)))) (ins ++ outs)).
Proof.
  intros [C1 [C2 C3]]. unfold find_tracing_memos. rewrite C1, C2, C3, <- map_app, !map_length, Nat.eqb_refl. cbn [negb]. f_equal.
  rewrite combine_map. clear C1 C2 C3. generalize (ins ++ outs) as l. induction l as [|x l IH]; [reflexivity|]. cbn [map flat_map fst snd]. now rewrite IH.
Qed.
Lemma trace_outcomes (b : tbody) ins outs (a : PF E) (c : BF) sx :
  hsuite_ok H -> clamped sx -> carries b ins outs ->
  Forall honest_record (ins ++ outs) -> Forall (honest_attrs E BB IP IDP) (ins ++ outs) -> Forall (honest_draws E IP IDP) (ins ++ outs) ->
  trace b (keygen a c sx) = mapM (fun r => r) (flat_map (outcome (tk_enc E (keygen a c sx))) (ins ++ outs)).
Proof.
  intros HH Hx Hc H1 H2 H3. unfold trace_assets. rewrite (find_carried b ins outs _ Hc). cbn [bind]. unfold extract_tracing_info. rewrite mapM_outcomes. f_equal.
  clear Hc. revert H1 H2 H3. generalize (ins ++ outs) as l. induction l as [|x l IH]; intros H1 H2 H3; [reflexivity|]. apply Forall_cons_iff in H1, H2, H3. cbn [flat_map]. rewrite map_app, IH by tauto. f_equal. now apply record_outcome.
Qed.

(** The owner of a tracing key recovers from an honest transfer exactly the amounts,
    types, attributes and owners of the records traced with it, if its policies trace
    assets or their records are transparent. *)
Theorem C50_honest_transfers_are_traced_partial :
  forall (b : tbody) ins outs (a : PF E) (c : BF) sx,
  hsuite_ok H -> clamped sx -> carries b ins outs ->
  Forall honest_record (ins ++ outs) -> Forall (honest_attrs E BB IP IDP) (ins ++ outs) -> Forall (honest_draws E IP IDP) (ins ++ outs) ->
  (forall x p, In x (ins ++ outs) -> In p (h_policies E IP IDP x) -> p_keys E IP p = tk_enc E (keygen a c sx) ->
     p_asset E IP p = true \/ get_record_type E (h_bar E IP IDP x) = RT_NonConfAmt_NonConfType) ->
  trace b (keygen a c sx) = Ok (flat_map (traced E IP IDP (tk_enc E (keygen a c sx))) (ins ++ outs)).
Proof.
  intros b ins outs a c sx HH Hx Hc H1 H2 H3 Hp. rewrite (trace_outcomes b ins outs a c sx HH Hx Hc H1 H2 H3).
  assert (K : forall x, In x (ins ++ outs) -> outcome (tk_enc E (keygen a c sx)) x = map Ok (traced E IP IDP (tk_enc E (keygen a c sx)) x)).
  { intros x Hi. unfold outcome, traced. specialize (Hp x). fold (h_bar E IP IDP x).
    assert (Q : forall p, In p (h_policies E IP IDP x) -> p_keys E IP p = tk_enc E (keygen a c sx) -> p_asset E IP p || negb (hidden E (h_bar E IP IDP x)) = true).
    { intros p Ip Ek. destruct (Hp p Hi Ip Ek) as [-> |Q]; [reflexivity|]. unfold hidden. rewrite Q. apply orb_true_r. }
    revert Q. generalize (h_policies E IP IDP x) as ps. generalize (h_attrs E IP IDP x) as al. intros al ps. revert al. induction ps as [|p ps IH]; intros [|y al] Q; try reflexivity.
    cbn [combine flat_map fst snd]. rewrite map_app. rewrite <- IH by (intros q Iq; apply Q; now right). f_equal.
    destruct (ek_eqb_spec (p_keys E IP p) (tk_enc E (keygen a c sx))) as [Ek|Nk]; [|reflexivity]. rewrite Q by (auto; now left). reflexivity. }
  rewrite (flat_map_ext_in _ _ _ K). clear. induction (ins ++ outs) as [|x l IH]; [reflexivity|]. cbn [flat_map].
  assert (M : forall (u : list (N * N * list N * N)) v w, mapM (fun r => r) v = Ok w -> mapM (fun r => r) (map Ok u ++ v) = Ok (u ++ w)).
  { induction u as [|y u IHu]; intros v w Hv; [exact Hv|]. cbn [map app mapM bind]. now rewrite (IHu _ _ Hv). }
  apply M, IH.
Qed.
(** A policy that only traces identities makes tracing of the whole transfer fail,
    even when everybody is honest. *)
Theorem C50_identity_only_policy_refuted :
  forall (b : tbody) ins outs (a : PF E) (c : BF) sx x p,
  hsuite_ok H -> clamped sx -> carries b ins outs ->
  Forall honest_record (ins ++ outs) -> Forall (honest_attrs E BB IP IDP) (ins ++ outs) -> Forall (honest_draws E IP IDP) (ins ++ outs) ->
  In x (ins ++ outs) -> In p (h_policies E IP IDP x) -> p_keys E IP p = tk_enc E (keygen a c sx) -> p_asset E IP p = false ->
  get_record_type E (h_bar E IP IDP x) <> RT_NonConfAmt_NonConfType ->
  trace b (keygen a c sx) = Err.
Proof.
  intros b ins outs a c sx x p HH Hx Hc H1 H2 H3 Hi Ip Ek Pf Hh. rewrite (trace_outcomes b ins outs a c sx HH Hx Hc H1 H2 H3).
  apply (mapM_err _ _ Err); [| |reflexivity].
  - intros r Hr. apply in_flat_map in Hr. destruct Hr as [y [_ Hr]]. unfold outcome in Hr. apply in_flat_map in Hr. destruct Hr as [pa [_ Hr]].
    destruct (ek_eqb E _ _); [|destruct Hr]. destruct Hr as [<-|[]]. destruct (_ || _); discriminate.
  - apply in_flat_map. exists x. split; [exact Hi|]. unfold outcome. apply in_flat_map. apply In_nth_error in Ip. destruct Ip as [n Ip].
    rewrite Forall_forall in H1. destruct (H1 x Hi) as [_ [Hl _]]. destruct (nth_error (h_attrs E IP IDP x) n) as [al|] eqn:Ea.
    2:{ apply nth_error_None in Ea. assert (nth_error (h_policies E IP IDP x) n <> None) by (rewrite Ip; discriminate). apply nth_error_Some in H0. lia. }
    exists (p, al). split.
    + clear -Ip Ea. revert Ip Ea. generalize (h_policies E IP IDP x) as ps. generalize (h_attrs E IP IDP x) as q. intros q ps. revert q n. induction ps as [|p0 ps IH]; intros [|al0 q] [|n] Ip Ea; try discriminate.
      * injection Ip as ->. injection Ea as ->. now left.
      * right. eapply IH; eassumption.
    + cbn [fst]. destruct (ek_eqb_spec (p_keys E IP p) (tk_enc E (keygen a c sx))); [|contradiction]. rewrite Pf. fold (h_bar E IP IDP x). apply hidden_spec in Hh. rewrite Hh. now left.
Qed.

(** ** What the verifier checks *)
Lemma same_maps (l l' : list (tbody * npol)) : Forall2 (fun x y => snd x = snd y /\ body_same (snd x) (fst x) (fst y)) l l' ->
  let run := mapM (fun x : tbody * npol => body_map E O IP IDP (fst x) (np_in E IP CM (snd x)) (np_out E IP CM (snd x))) in
  (run l = Err /\ run l' = Err) \/
  exists m m', run l = Ok m /\ run l' = Ok m' /\ mapM (body_instances E) m = mapM (body_instances E) m'.
Proof.
  intros F. cbv zeta. induction F as [|[b np] [b' np'] l l' [E1 E2] _ IH]; [right; exists [], []; repeat split|]. cbn [fst snd] in *. subst np'. cbn [mapM fst snd].
  destruct (body_same_map E O BB IP IDP CM ac_verify np b b' E2) as [m [m' [C1 [C2 R]]]]. destruct E2 as [[_ [S2 _]] _].
  assert (X1 : body_map E O IP IDP b (np_in E IP CM np) (np_out E IP CM np) = if negb (Nat.eqb (length m) (length (tb_tproofs E O IDP b))) then Err else Ok (m, tb_tproofs E O IDP b)) by (unfold body_map; now rewrite C1).
  assert (X2 : body_map E O IP IDP b' (np_in E IP CM np) (np_out E IP CM np) = if negb (Nat.eqb (length m) (length (tb_tproofs E O IDP b))) then Err else Ok (m', tb_tproofs E O IDP b)) by (unfold body_map; rewrite C2, S2; cbn [bind]; now rewrite (Forall2_len _ _ _ R)).
  rewrite X1, X2. destruct (negb _); [left; split; reflexivity|]. cbn [bind].
  destruct IH as [[I1 I2]|[ms [ms' [I1 [I2 I3]]]]]; [left; rewrite I1, I2; split; reflexivity|].
  right. rewrite I1, I2. cbn [rmap]. eexists. eexists. split; [reflexivity|]. split; [reflexivity|]. cbn [mapM]. rewrite I3, (reads_instances E _ _ _ R). reflexivity.
Qed.
(** The verdict depends on the memos only through the locks of hidden records under
    policies that trace assets and the attribute ciphertexts of policies that trace
    identities: never on the key written in a memo nor on its encrypted plaintext. *)
Theorem C50_verifier_reads_only_checked_slots :
  forall (l l' : list (tbody * npol)) g, Forall2 (fun x y => snd x = snd y /\ body_same (snd x) (fst x) (fst y)) l l' ->
  verify_transfers g (map fst l) (map snd l) = verify_transfers g (map fst l') (map snd l').
Proof.
  intros l l' g F. unfold batch_verify_traced_bodies.
  assert (EB : map (tb_body E O IDP) (map fst l) = map (tb_body E O IDP) (map fst l')).
  { induction F as [|x y l l' [_ [[S1 _] _]] _ IH]; [reflexivity|]. cbn [map]. now rewrite IH, S1. }
  assert (EP : map snd l = map snd l') by (clear EB; induction F as [|x y l l' [E1 _] _ IH]; [reflexivity|]; cbn [map]; now rewrite IH, E1).
  rewrite EB, EP. destruct (verify_bodies E O as_scalar _) as [[]| |]; [|reflexivity..]. cbn [bind].
  unfold batch_verify_tracing. rewrite !map_length. rewrite <- (Forall2_len _ _ _ F) at 1. rewrite (Forall2_len _ _ _ F), Nat.eqb_refl. cbn [negb].
  destruct (negb _); [reflexivity|].
  assert (A : batch_verify_asset_tracing E O IP IDP chal t0 g (map fst l) (map (np_in E IP CM) (map snd l')) (map (np_out E IP CM) (map snd l')) =
              batch_verify_asset_tracing E O IP IDP chal t0 g (map fst l') (map (np_in E IP CM) (map snd l')) (map (np_out E IP CM) (map snd l'))).
  { rewrite <- EP at 1 2. unfold batch_verify_asset_tracing. rewrite !map_map, !combine_map, !mapM_map.
    destruct (same_maps l l' F) as [[I1 I2]|[m [m' [I1 [I2 I3]]]]]; rewrite I1, I2; cbn [bind]; [reflexivity|]. now rewrite I3. }
  rewrite A. clear A. destruct (batch_verify_asset_tracing _ _ _ _ _ _ _ _ _ _) as [[]| |]; [|reflexivity..]. cbn [bind]. rewrite <- EP at 1. rewrite !combine_map, !mapM_map. f_equal. apply mapM_ext2.
  revert F. apply Forall2_impl. intros [b np] [b' np'] [E1 E2]. cbn [fst snd] in *. subst np'. now apply body_same_identities.
Qed.

(** The shape of accepted transfers. *)
Definition shaped (b : tbody) (np : npol) : Prop :=
  let n := length (x_in E O (tb_body E O IDP b)) in
  length (np_in E IP CM np) = n /\ length (np_out E IP CM np) = length (x_out E O (tb_body E O IDP b)) /\
  length (tb_memos E O IDP b) = (n + length (x_out E O (tb_body E O IDP b)))%nat /\
  forall i ps ms, nth_error (np_in E IP CM np ++ np_out E IP CM np) i = Some ps -> nth_error (tb_memos E O IDP b) i = Some ms -> length ps = length ms.
Lemma collect_shape (b : tbody) np m : collect_by_key E O IP IDP b (np_in E IP CM np) (np_out E IP CM np) = Ok m ->
  let n := length (x_in E O (tb_body E O IDP b)) in
  length (np_in E IP CM np) = n /\ length (np_out E IP CM np) = length (x_out E O (tb_body E O IDP b)) /\
  length (tb_memos E O IDP b) = (n + length (x_out E O (tb_body E O IDP b)))%nat /\
  m = lm_collect E (flat_map (verifier_slots E IP) (combine (combine (np_out E IP CM np) (x_out E O (tb_body E O IDP b))) (skipn n (tb_memos E O IDP b))))
       (lm_collect E (flat_map (verifier_slots E IP) (combine (combine (np_in E IP CM np) (x_in E O (tb_body E O IDP b))) (firstn n (tb_memos E O IDP b)))) []).
Proof.
  unfold collect_by_key, collect_bars. destruct (Nat.ltb_spec (length (tb_memos E O IDP b)) (length (x_in E O (tb_body E O IDP b)))) as [|Hn]; [discriminate|].
  destruct (Nat.eqb_spec (length (np_in E IP CM np)) (length (x_in E O (tb_body E O IDP b)))) as [E1|]; [|discriminate]. cbn [negb orb].
  destruct (negb _) eqn:E2; [discriminate|]. cbn [bind]. destruct (Nat.eqb_spec (length (np_out E IP CM np)) (length (x_out E O (tb_body E O IDP b)))) as [E3|]; [|discriminate]. cbn [negb orb].
  destruct (Nat.eqb_spec (length (x_out E O (tb_body E O IDP b))) (length (skipn (length (x_in E O (tb_body E O IDP b))) (tb_memos E O IDP b)))) as [E4|]; [|discriminate]. cbn [negb]. intros Q. apply Ok_inj in Q. subst m.
  split; [exact E1|]. split; [exact E3|]. split; [|reflexivity]. rewrite skipn_length in E4. lia.
Qed.
Lemma identity_lengths ps ms pfs sigs : length ps = length ms -> verify_identity_proofs E IP IDP CM ac_verify ps ms pfs sigs = Ok tt ->
  forall i p m, nth_error ps i = Some p -> nth_error ms i = Some m -> length p = length m.
Proof.
  intros Hl. unfold verify_identity_proofs. destruct (Nat.eqb_spec (length ms) (length pfs)) as [E1|]; [|discriminate]. cbn [negb orb].
  destruct (Nat.eqb_spec (length ps) (length sigs)) as [E2|]; [|discriminate]. cbn [negb]. intros Q. apply bind_inv in Q. destruct Q as [[] [_ Q]]. apply rmap_ok in Q. destruct Q as [l [Q _]]. apply mapM_ok in Q.
  intros i p m Hp Hm. assert (exists pf sg, nth_error pfs i = Some pf /\ nth_error sigs i = Some sg) as [pf [sg [Hf Hs]]].
  { destruct (nth_error pfs i) as [pf|] eqn:Ef; [|apply nth_error_None in Ef; assert (i < length ms)%nat by (apply nth_error_Some; congruence); lia].
    destruct (nth_error sigs i) as [sg|] eqn:Es; [|apply nth_error_None in Es; assert (i < length ps)%nat by (apply nth_error_Some; congruence); lia]. now exists pf, sg. }
  assert (X : nth_error (combine ps (combine ms (combine pfs sigs))) i = Some (p, (m, (pf, sg)))) by (now rewrite !nth_combine, Hp, Hm, Hf, Hs).
  apply nth_error_In in X. destruct (Forall2_in_l _ _ _ _ Q X) as [y [_ Hy]]. unfold verify_identity_record in Hy.
  destruct (Nat.eqb_spec (length p) (length m)) as [E3|]; [exact E3|discriminate].
Qed.
Lemma accepted_parts (l : list (tbody * npol)) g : verify_tracing g (map fst l) (map snd l) = Ok tt ->
  exists maps isss, mapM (fun x : tbody * npol => body_map E O IP IDP (fst x) (np_in E IP CM (snd x)) (np_out E IP CM (snd x))) l = Ok maps /\
    mapM (body_instances E) maps = Ok isss /\ pe_batch_verify B Bb chal t0 g (concat isss) = Ok tt /\ Forall (fun x => verify_identities E O IP IDP CM ac_verify x = Ok tt) l.
Proof.
  unfold batch_verify_tracing. rewrite !map_length, Nat.eqb_refl. cbn [negb]. destruct (negb _); [discriminate|]. intros Q. apply bind_inv in Q. destruct Q as [[] [Q1 Q2]].
  unfold batch_verify_asset_tracing in Q1. rewrite !map_map, !combine_map, mapM_map in Q1. apply bind_inv in Q1. destruct Q1 as [maps [M1 Q1]]. apply bind_inv in Q1. destruct Q1 as [isss [M2 M3]].
  exists maps, isss. split; [exact M1|]. split; [exact M2|]. split; [exact M3|]. rewrite combine_map, mapM_map in Q2. apply rmap_ok in Q2. destruct Q2 as [u [Q2 _]]. apply mapM_ok in Q2. clear -Q2.
  induction Q2 as [|[b np] [] l u Hx _ IH]; constructor; [exact Hx|exact IH].
Qed.
Lemma accepted_shape (l : list (tbody * npol)) g b np : verify_tracing g (map fst l) (map snd l) = Ok tt -> In (b, np) l -> shaped b np.
Proof.
  intros V Hi. destruct (accepted_parts l g V) as [maps [isss [M1 [_ [_ Hid]]]]]. apply mapM_ok in M1. destruct (Forall2_in_l _ _ _ _ M1 Hi) as [[m ps] [_ Hm]]. cbn [fst snd] in Hm.
  unfold body_map in Hm. apply bind_inv in Hm. destruct Hm as [m' [C _]]. destruct (collect_shape b np m' C) as [L1 [L2 [L3 _]]]. split; [exact L1|]. split; [exact L2|]. split; [exact L3|].
  rewrite Forall_forall in Hid. specialize (Hid _ Hi). unfold verify_identities in Hid. destruct (Nat.ltb _ _); [discriminate|]. apply bind_inv in Hid. destruct Hid as [[] [I1 I2]].
  set (n := length (x_in E O (tb_body E O IDP b))) in *. intros i p ms Hp Hm.
  destruct (Nat.lt_ge_cases i n) as [Hn|Hn].
  - rewrite nth_error_app1 in Hp by lia. eapply (identity_lengths _ _ _ _ _ I1 i); [exact Hp|]. rewrite nth_firstn_lt by exact Hn. exact Hm.
  - rewrite nth_error_app2 in Hp by lia. rewrite L1 in Hp. eapply (identity_lengths _ _ _ _ _ I2 (i - n)%nat); [exact Hp|]. rewrite nth_skipn. now replace (n + (i - n))%nat with i by lia.
  Unshelve. all: rewrite ?firstn_length, ?skipn_length; lia.
Qed.

(** ** Forged memos *)
Definition with_memos (b : tbody) (ms : list (list tmemo)) : tbody :=
  mkTb E O IDP (tb_body E O IDP b) (tb_tproofs E O IDP b) (tb_idin E O IDP b) (tb_idout E O IDP b) ms (tb_owners E O IDP b).
Definition rewritten (f : nat -> nat -> tmemo -> tmemo) (ms : list (list tmemo)) : list (list tmemo) := mapi 0 (fun i l => mapi 0 (f i) l) ms.
Lemma nth_rewritten f ms i ms' : nth_error (rewritten f ms) i = Some ms' -> exists l, nth_error ms i = Some l /\ ms' = mapi 0 (f i) l.
Proof. unfold rewritten. rewrite nth_mapi. destruct (nth_error ms i) as [l|]; [|discriminate]. intros Q. injection Q as <-. now exists l. Qed.
Lemma rewritten_same b np f : shaped b np -> (forall i j r p m, slot_at b np i j r p m -> slot_same E IP r p m (f i j m)) ->
  body_same np b (with_memos b (rewritten f (tb_memos E O IDP b))).
Proof.
  intros [L1 [L2 [L3 _]]] K. split; [repeat split|]. set (n := length (x_in E O (tb_body E O IDP b))) in *. set (ms := tb_memos E O IDP b) in *.
  exists (firstn n ms), (skipn n ms), (firstn n (rewritten f ms)), (skipn n (rewritten f ms)). cbn [with_memos tb_memos]. rewrite !firstn_skipn. split; [reflexivity|]. split; [reflexivity|].
  assert (Lr : length (rewritten f ms) = length ms) by apply mapi_length.
  assert (R : forall i p r m m', nth_error (np_in E IP CM np ++ np_out E IP CM np) i = Some p -> nth_error (x_in E O (tb_body E O IDP b) ++ x_out E O (tb_body E O IDP b)) i = Some r ->
              nth_error ms i = Some m -> nth_error (rewritten f ms) i = Some m' -> record_same E IP p r m m').
  { intros i p r m m' Hp Hr Hm Hm'. destruct (nth_rewritten f ms i m' Hm') as [l [Hl ->]]. rewrite Hm in Hl. injection Hl as <-. split; [now rewrite mapi_length|].
    intros j q x y Hq Hx Hy. rewrite nth_mapi, Hx in Hy. injection Hy as <-. cbn [Nat.add]. apply K. split; [exact Hr|]. split; [now exists p|now exists m]. }
  split; (split; [lia|]; split; [rewrite ?firstn_length, ?skipn_length; lia|]; split; [rewrite ?firstn_length, ?skipn_length; lia|]).
  - intros i p r m m' Hp Hr Hm Hm'. assert (Hi : (i < n)%nat) by (unfold n; apply nth_error_Some; congruence). rewrite nth_firstn_lt in Hm, Hm' by exact Hi.
    apply (R i); try assumption; rewrite nth_error_app1; (assumption || lia).
  - intros i p r m m' Hp Hr Hm Hm'. rewrite nth_skipn in Hm, Hm'. apply (R (n + i)%nat); try assumption; rewrite nth_error_app2 by lia; [now replace (n + i - length (np_in E IP CM np))%nat with i by lia|now replace (n + i - length (x_in E O (tb_body E O IDP b)))%nat with i by lia].
Qed.
Lemma rewritten_verdict b np f g : shaped b np -> (forall i j r p m, slot_at b np i j r p m -> slot_same E IP r p m (f i j m)) ->
  verify_transfers g [with_memos b (rewritten f (tb_memos E O IDP b))] [np] = verify_transfers g [b] [np].
Proof.
  intros S K. symmetry. apply (C50_verifier_reads_only_checked_slots [(b, np)] [(with_memos b (rewritten f (tb_memos E O IDP b)), np)]).
  constructor; [|constructor]. split; [reflexivity|]. now apply rewritten_same.
Qed.
Lemma shaped_lengths b np f : shaped b np ->
  Nat.eqb (length (x_in E O (tb_body E O IDP b) ++ x_out E O (tb_body E O IDP b))) (length (rewritten f (tb_memos E O IDP b))) = true.
Proof. intros [_ [_ [L _]]]. apply Nat.eqb_eq. unfold rewritten. rewrite app_length, mapi_length. lia. Qed.
Lemma find_rewritten_none b np f k : shaped b np -> (forall i j m, tm_key E (f i j m) <> k) ->
  find_tracing_memos E O IDP (with_memos b (rewritten f (tb_memos E O IDP b))) k = Ok [].
Proof.
  intros S K. unfold find_tracing_memos. cbn [with_memos tb_body tb_memos]. rewrite (shaped_lengths b np f S). cbn [negb]. f_equal.
  assert (Z : forall ms m, In ms (rewritten f (tb_memos E O IDP b)) -> In m ms -> ek_eqb E (tm_key E m) k = false).
  { intros ms m H1 H2. apply In_nth_error in H1. destruct H1 as [i H1]. destruct (nth_rewritten _ _ _ _ H1) as [l [_ ->]]. apply In_nth_error in H2. destruct H2 as [j H2]. rewrite nth_mapi in H2.
    destruct (nth_error l j) as [m0|]; [|discriminate]. injection H2 as <-. cbn [Nat.add]. destruct (ek_eqb_spec (tm_key E (f i j m0)) k) as [Q|]; [|reflexivity]. now apply K in Q. }
  revert Z. generalize (rewritten f (tb_memos E O IDP b)) as mm. generalize (x_in E O (tb_body E O IDP b) ++ x_out E O (tb_body E O IDP b)) as bars. clear.
  induction bars as [|r bars IH]; intros [|ms mm] Z; try reflexivity. cbn [combine flat_map fst snd]. rewrite IH by (intros; eapply Z; [right|]; eassumption). rewrite app_nil_r.
  replace (filter (fun m => ek_eqb E (tm_key E m) k) ms) with (@nil tmemo); [reflexivity|]. symmetry.
  assert (Q : forall m, In m ms -> ek_eqb E (tm_key E m) k = false) by (intros; eapply Z; [left; reflexivity|assumption]). clear -Q. induction ms as [|m ms IH]; [reflexivity|]. cbn. rewrite Q by now left. apply IH. intros x Hx. apply Q. now right.
Qed.
Lemma find_rewritten_one b np f k i j r p m : shaped b np -> slot_at b np i j r p m -> tm_key E (f i j m) = k ->
  (forall i' j' m', (i', j') <> (i, j) -> tm_key E (f i' j' m') <> k) ->
  find_tracing_memos E O IDP (with_memos b (rewritten f (tb_memos E O IDP b))) k = Ok [(r, f i j m)].
Proof.
  intros S [Hr [_ [ms [Hms Hm]]]] Hk K. unfold find_tracing_memos. cbn [with_memos tb_body tb_memos]. rewrite (shaped_lengths b np f S). cbn [negb]. f_equal.
  assert (Hn : nth_error (rewritten f (tb_memos E O IDP b)) i = Some (mapi 0 (f i) ms)) by (unfold rewritten; now rewrite nth_mapi, Hms).
  rewrite (flat_map_one _ _ i (r, mapi 0 (f i) ms)); cbn [fst snd].
  - rewrite (filter_one _ _ j (f i j m)); [reflexivity|now rewrite nth_mapi, Hm| |].
    + destruct (ek_eqb_spec (tm_key E (f i j m)) k); [reflexivity|contradiction].
    + intros j' y Hy Hj. rewrite nth_mapi in Hy. destruct (nth_error ms j') as [m'|]; [|discriminate]. injection Hy as <-. cbn [Nat.add]. destruct (ek_eqb_spec (tm_key E (f i j' m')) k) as [Q|]; [|reflexivity]. exfalso. refine (K i j' m' _ Q). congruence.
  - now rewrite nth_combine, Hr, Hn.
  - intros i' [r' l] Hy Hi. rewrite nth_combine in Hy. destruct (nth_error (x_in E O (tb_body E O IDP b) ++ x_out E O (tb_body E O IDP b)) i'); [|discriminate].
    destruct (nth_error (rewritten f (tb_memos E O IDP b)) i') as [l'|] eqn:El; [|discriminate]. injection Hy as _ ->. destruct (nth_rewritten _ _ _ _ El) as [l0 [_ ->]]. cbn [fst snd].
    replace (filter _ (mapi 0 (f i') l0)) with (@nil tmemo); [reflexivity|]. symmetry.
    assert (Q : forall y, In y (mapi 0 (f i') l0) -> ek_eqb E (tm_key E y) k = false).
    { intros y Hy. apply In_nth_error in Hy. destruct Hy as [j' Hy]. rewrite nth_mapi in Hy. destruct (nth_error l0 j') as [m'|]; [|discriminate]. injection Hy as <-. cbn [Nat.add]. destruct (ek_eqb_spec (tm_key E (f i' j' m')) k) as [Q|]; [|reflexivity]. exfalso. refine (K i' _ m' _ Q). congruence. }
    revert Q. generalize (mapi 0 (f i') l0) as q. clear. induction q as [|m ms IH]; intros Q; [reflexivity|]. cbn. rewrite Q by now left. apply IH. intros x Hx. apply Q. now right.
Qed.

Definition other_key (k : enc_keys E (BG := BG)) : enc_keys E := mkEk E (madd (ek_rec E k) B) (ek_attr E k) (ek_lock E k).
Lemma other_key_differs k : B <> m0 -> other_key k <> k.
Proof.
  intros NB Q. destruct k as [k1 k2 k3]. unfold other_key in Q. cbn [ek_rec ek_attr ek_lock] in Q. injection Q as Q. apply NB. transitivity (msub (madd k1 B) k1); [module_eq|]. rewrite Q. module_eq.
Qed.
Definition rekeyed (k : enc_keys E (BG := BG)) (m : tmemo) : tmemo := mkTm E (other_key k) (tm_amount E m) (tm_type E m) (tm_attrs E m) (tm_info E m).
Lemma rekeyed_same k r p m : slot_same E IP r p m (rekeyed k m).
Proof. split; intros; [reflexivity|]. split; reflexivity. Qed.

(** Every accepted transfer has a twin with the same records and proofs and the same
    verdict, whatever the verifier draws, from which the tracer gets nothing. *)
Theorem C50_silent_transfers_refuted :
  forall (b : tbody) np g (tk : tkeypair E (BG := BG)), B <> m0 -> verify_transfers g [b] [np] = Ok tt ->
  exists b', same_but_memos b b' /\ (forall g', verify_transfers g' [b'] [np] = verify_transfers g' [b] [np]) /\ trace b' tk = Ok [].
Proof.
  intros b np g tk NB V. apply bind_inv in V. destruct V as [[] [_ V]]. assert (S : shaped b np) by (apply (accepted_shape [(b, np)] g); [exact V|now left]).
  exists (with_memos b (rewritten (fun _ _ => rekeyed (tk_enc E tk)) (tb_memos E O IDP b))). split; [repeat split|]. split.
  - intros g'. apply rewritten_verdict; [exact S|]. intros. apply rekeyed_same.
  - unfold trace_assets. rewrite (find_rewritten_none b np _ _ S); [reflexivity|]. intros i j m. now apply other_key_differs.
Qed.

Definition hit (i j : nat) (x : tmemo) (k : enc_keys E (BG := BG)) (i' j' : nat) (m : tmemo) : tmemo :=
  if Nat.eqb i' i && Nat.eqb j' j then x else rekeyed k m.
Lemma hit_at i j x k m : hit i j x k i j m = x.
Proof. unfold hit. now rewrite !Nat.eqb_refl. Qed.
Lemma hit_other i j x k i' j' m : B <> m0 -> (i', j') <> (i, j) -> tm_key E (hit i j x k i' j' m) <> k.
Proof.
  intros NB N. unfold hit. destruct (Nat.eqb_spec i' i) as [->|]; [destruct (Nat.eqb_spec j' j) as [->|]; [now destruct N|]|]; now apply other_key_differs.
Qed.
Lemma hit_same b np i j r p m x k : slot_at b np i j r p m ->
  (get_record_type E r = RT_NonConfAmt_NonConfType \/ p_asset E IP p = false) -> p_ident E IP p = None ->
  forall i' j' r' p' m', slot_at b np i' j' r' p' m' -> slot_same E IP r' p' m' (hit i j x k i' j' m').
Proof.
  intros [Hr [[ps [Hps Hp]] _]] Ho Hn i' j' r' p' m' [Hr' [[ps' [Hps' Hp']] _]]. unfold hit. destruct (Nat.eqb_spec i' i) as [->|]; [destruct (Nat.eqb_spec j' j) as [->|]|]; cbn [andb]; try apply rekeyed_same.
  assert (r' = r) by congruence. assert (ps' = ps) by congruence. subst. assert (p' = p) by congruence. subst. split; [intros Q; contradiction|]. intros Q1 Q2. destruct Ho as [Q|Q]; [contradiction|congruence].
Qed.
Lemma zero32 : bytes32 (repeat 0 32).
Proof. split; [reflexivity|]. apply Forall_forall. intros x Hx. apply repeat_spec in Hx. now subst x. Qed.
(** A slot of a transparent record, or of a policy that traces nothing, is not checked
    at all: the tracer can be told any amount and any type. *)
Theorem C50_false_values_refuted :
  forall (b : tbody) np g (a : PF E) (c : BF) sx i j r p m v t, B <> m0 -> hsuite_ok H -> clamped sx ->
  verify_transfers g [b] [np] = Ok tt -> slot_at b np i j r p m ->
  (get_record_type E r = RT_NonConfAmt_NonConfType \/ p_asset E IP p = false) -> p_ident E IP p = None -> v < 2 ^ 64 -> is_type t ->
  exists b', same_but_memos b b' /\ (forall g', verify_transfers g' [b'] [np] = verify_transfers g' [b] [np]) /\
    trace b' (keygen a c sx) = Ok [(v, t, [], b_pk r)].
Proof.
  intros b np g a c sx i j r p m v t NB HH Hx V Hs Ho Hn Hv Ht. apply bind_inv in V. destruct V as [[] [_ V]]. assert (S : shaped b np) by (apply (accepted_shape [(b, np)] g); [exact V|now left]).
  set (k := tk_enc E (keygen a c sx)).
  set (x := tm_new H E as_scalar (repeat 0 32) k (Some (v mod 2 ^ 32, v / 2 ^ 32, f0, f0)) (Some (t, f0)) []).
  exists (with_memos b (rewritten (hit i j x k) (tb_memos E O IDP b))). split; [repeat split|]. split.
  - intros g'. apply rewritten_verdict; [exact S|]. intros i' j' r' p' m'. now apply (hit_same b np i j r p m).
  - unfold trace_assets. fold k. rewrite (find_rewritten_one b np _ _ i j r p m S Hs); [|now rewrite hit_at|intros; now apply hit_other].
    cbn [bind extract_tracing_info]. rewrite hit_at. unfold extract_tracing_info. cbn [mapM]. unfold trace_one, x, k. rewrite decrypt_new; [|assumption..|exact zero32| |constructor].
    2:{ split; [split; [apply N.mod_lt; discriminate|apply N.div_lt_upper_bound; [discriminate|exact Hv]]|]. split; [exact Ht|constructor]. }
    cbn [bind fst snd tm_new tm_amount tm_type map rmap]. replace (v mod 2 ^ 32 + v / 2 ^ 32 * 2 ^ 32) with v; [reflexivity|]. rewrite N.mul_comm, N.add_comm. apply N.div_mod. discriminate.
Qed.
(** ... and a memo there can stop the tracer with a panic. *)
Theorem C50_malicious_memo_panics :
  forall (b : tbody) np g (a : PF E) (c : BF) sx i j r p m, B <> m0 -> hsuite_ok H -> clamped sx ->
  verify_transfers g [b] [np] = Ok tt -> slot_at b np i j r p m ->
  (get_record_type E r = RT_NonConfAmt_NonConfType \/ p_asset E IP p = false) -> p_ident E IP p = None ->
  exists b', same_but_memos b b' /\ (forall g', verify_transfers g' [b'] [np] = verify_transfers g' [b] [np]) /\
    trace b' (keygen a c sx) = Panic.
Proof.
  intros b np g a c sx i j r p m NB HH Hx V Hs Ho Hn. apply bind_inv in V. destruct V as [[] [_ V]]. assert (S : shaped b np) by (apply (accepted_shape [(b, np)] g); [exact V|now left]).
  set (k := tk_enc E (keygen a c sx)).
  set (x := mkTm E (BG := BG) k None None [] (hybrid_encrypt_x H (repeat 0 32) (ek_lock E k) [0])).
  exists (with_memos b (rewritten (hit i j x k) (tb_memos E O IDP b))). split; [repeat split|]. split.
  - intros g'. apply rewritten_verdict; [exact S|]. intros i' j' r' p' m'. now apply (hit_same b np i j r p m).
  - unfold trace_assets. fold k. rewrite (find_rewritten_one b np _ _ i j r p m S Hs); [|now rewrite hit_at|intros; now apply hit_other].
    cbn [bind]. rewrite hit_at. unfold extract_tracing_info. cbn [mapM]. unfold trace_one, tm_decrypt, x, k. cbn [tm_amount tm_type tm_attrs tm_info tm_amount_part tm_type_part keygen tk_enc tk_dec ek_lock dk_rec dk_attr dk_lock bind fst snd].
    rewrite (proj1 (C46_hybrid_x25519_round_trip H HH _ sx [0] zero32 Hx)). reflexivity.
Qed.
(** Any transfer with a memo has a twin, with the same verdict, on which tracing does
    not succeed. *)
Theorem C50_blocked_tracing_refuted :
  forall (b : tbody) np g (a : PF E) (c : BF) sx i j r p m, hsuite_ok H -> clamped sx ->
  verify_transfers g [b] [np] = Ok tt -> slot_at b np i j r p m ->
  exists b', same_but_memos b b' /\ (forall g', verify_transfers g' [b'] [np] = verify_transfers g' [b] [np]) /\
    forall l, trace b' (keygen a c sx) <> Ok l.
Proof.
  intros b np g a c sx i j r p m HH Hx V [Hr [_ [ms [Hms Hm]]]]. apply bind_inv in V. destruct V as [[] [_ V]]. assert (S : shaped b np) by (apply (accepted_shape [(b, np)] g); [exact V|now left]).
  set (k := tk_enc E (keygen a c sx)).
  set (f := fun (_ _ : nat) (m : tmemo) => mkTm E (BG := BG) k (tm_amount E m) (tm_type E m) (tm_attrs E m) (hybrid_encrypt_x H (repeat 0 32) (ek_lock E k) [0])).
  exists (with_memos b (rewritten f (tb_memos E O IDP b))). split; [repeat split|]. split.
  - intros g'. apply rewritten_verdict; [exact S|]. intros. split; intros; [reflexivity|]. split; reflexivity.
  - intros l Q. unfold trace_assets, find_tracing_memos in Q. cbn [with_memos tb_body tb_memos] in Q. rewrite (shaped_lengths b np f S) in Q. cbn [negb bind] in Q. apply mapM_ok in Q.
    assert (Hi : In (r, f i j m) (flat_map (fun bm : bar E * list tmemo => map (fun m0 => (fst bm, m0)) (filter (fun m0 => ek_eqb E (tm_key E m0) (tk_enc E (keygen a c sx))) (snd bm)))
              (combine (x_in E O (tb_body E O IDP b) ++ x_out E O (tb_body E O IDP b)) (rewritten f (tb_memos E O IDP b))))).
    { apply in_flat_map. exists (r, mapi 0 (f i) ms). split.
      - apply (nth_error_In _ i). unfold rewritten. now rewrite nth_combine, Hr, nth_mapi, Hms.
      - cbn [fst snd]. apply in_map, filter_In. split; [apply (nth_error_In _ j); now rewrite nth_mapi, Hm|]. cbn [f tm_key]. fold k. destruct (ek_eqb_spec k k); [reflexivity|contradiction]. }
    destruct (Forall2_in_l _ _ _ _ Q Hi) as [y [_ Hy]]. unfold trace_one in Hy. apply bind_inv in Hy. destruct Hy as [d [Hy _]]. unfold tm_decrypt in Hy.
    cbn [f tm_info tm_attrs] in Hy. unfold k in Hy. cbn [keygen tk_enc tk_dec ek_lock dk_rec dk_attr dk_lock] in Hy. rewrite (proj1 (C46_hybrid_x25519_round_trip H HH _ sx [0] zero32 Hx)) in Hy.
    unfold tm_amount_part, tm_type_part in Hy. cbn [f tm_amount tm_type] in Hy. destruct (tm_amount E m) as [ea|]; [discriminate|]. cbn [bind snd] in Hy. destruct (tm_type E m) as [et|]; [discriminate|]. cbn [bind snd] in Hy.
    destruct (tm_attrs E m) as [|x xs]; [discriminate|]. cbn [length Nat.mul] in Hy. discriminate.
Qed.

(** ** What acceptance guarantees *)
Lemma combine_fst_snd {A C} (l : list (A * C)) : combine (map fst l) (map snd l) = l.
Proof. induction l as [|[x y] l IH]; [reflexivity|]. cbn. now rewrite IH. Qed.
(** In an accepted batch, every policy of every record has its memo.  If the policy
    traces assets and the record hides something, the memo has locks for exactly the
    hidden fields, and each lock stands beside the commitment of its field in an
    accepted proof that ciphertexts for the key of the policy and commitments have the
    same contents. *)
Theorem C50_checked_locks :
  forall (l : list (tbody * npol)) b np i j r ps p, (forall g, verify_transfers g (map fst l) (map snd l) = Ok tt) -> In (b, np) l ->
  nth_error (x_in E O (tb_body E O IDP b) ++ x_out E O (tb_body E O IDP b)) i = Some r ->
  nth_error (np_in E IP CM np ++ np_out E IP CM np) i = Some ps -> nth_error ps j = Some p ->
  exists m, slot_at b np i j r p m /\
  (p_asset E IP p = true -> get_record_type E r <> RT_NonConfAmt_NonConfType ->
   exists cts coms pf, (forall g, pe_aggregate_verify B Bb chal t0 g (ek_rec E (p_keys E IP p)) cts coms pf = Ok tt) /\
     match b_amount r with
     | APlain _ => tm_amount E m = None
     | AConf cl ch => exists el eh gl gh, tm_amount E m = Some (el, eh) /\ decompress E cl = Some gl /\ decompress E ch = Some gh /\
                        In (el, gl) (combine cts coms) /\ In (eh, gh) (combine cts coms)
     end /\
     match b_type r with
     | TPlain _ => tm_type E m = None
     | TConf ct => exists e g, tm_type E m = Some e /\ decompress E ct = Some g /\ In (e, g) (combine cts coms)
     end).
Proof.
  intros l b np i j r ps p V Hin Hr Hps Hp.
  assert (V' : forall g, verify_tracing g (map fst l) (map snd l) = Ok tt) by (intros g; specialize (V g); apply bind_inv in V; now destruct V as [[] [_ V]]).
  pose proof (accepted_shape l (fun _ => f0) b np (V' _) Hin) as [L1 [L2 [L3 L4]]].
  destruct (nth_error (tb_memos E O IDP b) i) as [ms|] eqn:Hms.
  2:{ apply nth_error_None in Hms. assert (i < length (x_in E O (tb_body E O IDP b) ++ x_out E O (tb_body E O IDP b)))%nat by (apply nth_error_Some; congruence). rewrite app_length in *. lia. }
  destruct (nth_error ms j) as [m|] eqn:Hm.
  2:{ apply nth_error_None in Hm. assert (j < length ps)%nat by (apply nth_error_Some; congruence). specialize (L4 i ps ms Hps Hms). lia. }
  exists m. split; [split; [exact Hr|]; split; [now exists ps|now exists ms]|]. intros Ha Hh. apply hidden_spec in Hh.
  destruct (accepted_parts l (fun _ => f0) (V' _)) as [maps [isss [M1 [M2 _]]]].
  assert (HV : Forall (fun i => forall g, pe_aggregate_verify B Bb chal t0 g (pi_pk i) (pi_cts i) (pi_coms i) (pi_proof i) = Ok tt) (concat isss)).
  { apply C28_batch_is_conjunction. intros g. destruct (accepted_parts l g (V' g)) as [maps' [isss' [M1' [M2' [M3' _]]]]]. rewrite M1 in M1'. apply Ok_inj in M1'. subst maps'. rewrite M2 in M2'. apply Ok_inj in M2'. now subst isss'. }
  apply mapM_ok in M1. destruct (Forall2_in_l _ _ _ _ M1 Hin) as [[mp pfs] [Hmp Hb]]. cbn [fst snd] in Hb. unfold body_map in Hb. apply bind_inv in Hb. destruct Hb as [mp' [Hc Hb]].
  destruct (Nat.eqb_spec (length mp') (length (tb_tproofs E O IDP b))) as [Lp|]; [|discriminate]. cbn [negb] in Hb. apply Ok_inj in Hb. injection Hb as -> <-.
  destruct (collect_shape b np mp Hc) as [_ [_ [_ Emp]]]. set (n := length (x_in E O (tb_body E O IDP b))) in *.
  assert (Hs : exists vs, In (ek_rec E (p_keys E IP p), vs) mp /\ In (r, m) vs).
  { assert (Vs : In (ek_rec E (p_keys E IP p), (r, m)) (verifier_slots E IP (ps, r, ms))).
    { unfold verifier_slots. rewrite Hh. apply in_flat_map. exists (p, m). split; [apply (nth_error_In _ j); now rewrite nth_combine, Hp, Hm|]. cbn [fst snd]. rewrite Ha. now left. }
    rewrite Emp. destruct (Nat.lt_ge_cases i n) as [Hn|Hn].
    - assert (X : exists vs, In (ek_rec E (p_keys E IP p), vs) (lm_collect E (flat_map (verifier_slots E IP) (combine (combine (np_in E IP CM np) (x_in E O (tb_body E O IDP b))) (firstn n (tb_memos E O IDP b)))) []) /\ In (r, m) vs).
      { apply lm_collect_in. apply in_flat_map. exists (ps, r, ms). split; [|exact Vs]. apply (nth_error_In _ i). rewrite nth_error_app1 in Hps, Hr by (fold n; lia). now rewrite !nth_combine, Hps, Hr, nth_firstn_lt, Hms by exact Hn. }
      destruct X as [vs [X1 X2]]. eapply lm_collect_keep; eassumption.
    - apply lm_collect_in. apply in_flat_map. exists (ps, r, ms). split; [|exact Vs]. apply (nth_error_In _ (i - n)). rewrite nth_error_app2 in Hps, Hr by (fold n; lia). fold n in Hr. rewrite L1 in Hps. rewrite !nth_combine, Hps, Hr, nth_skipn. now replace (n + (i - n))%nat with i by lia; rewrite Hms. }
  destruct Hs as [vs [Hk Hv]].
  apply mapM_ok in M2. destruct (Forall2_in_l _ _ _ _ M2 Hmp) as [iss [Hiss Hbi]]. unfold body_instances in Hbi. cbn [fst snd] in Hbi. apply mapM_ok in Hbi.
  apply In_nth_error in Hk. destruct Hk as [q Hk]. destruct (nth_error (tb_tproofs E O IDP b) q) as [pf|] eqn:Hq.
  2:{ apply nth_error_None in Hq. assert (q < length mp)%nat by (apply nth_error_Some; congruence). lia. }
  assert (X : In (ek_rec E (p_keys E IP p), vs, pf) (combine mp (tb_tproofs E O IDP b))) by (apply (nth_error_In _ q); now rewrite nth_combine, Hk, Hq).
  destruct (Forall2_in_l _ _ _ _ Hbi X) as [inst [Hi1 Hi2]]. apply bind_inv in Hi2. destruct Hi2 as [cc [Hx Hi2]]. apply Ok_inj in Hi2. subst inst.
  rewrite Forall_forall in HV. specialize (HV _ (proj2 (in_concat _ _) (ex_intro _ iss (conj Hiss Hi1)))). cbn [pi_pk pi_cts pi_coms pi_proof] in HV.
  exists (fst cc), (snd cc), pf. split; [exact HV|]. unfold extract_all in Hx. apply bind_inv in Hx. destruct Hx as [pps [Hx1 Hx2]]. apply Ok_inj in Hx2. subst cc. cbn [fst snd]. rewrite combine_fst_snd.
  apply mapM_ok in Hx1. destruct (Forall2_in_l _ _ _ _ Hx1 Hv) as [pp [Hpp Hx]]. cbn [fst snd] in Hx.
  assert (In_pp : forall y, In y pp -> In y (concat pps)) by (intros y Hy; apply in_concat; now exists pp). clear -Hx In_pp.
  unfold extract_parts, amount_conf, type_conf in Hx. destruct (b_amount r) as [x|cl ch], (b_type r) as [y|ct], (tm_amount E m) as [[el eh]|], (tm_type E m) as [e|]; cbn [andb bind] in Hx; try discriminate;
    repeat match type of Hx with context [decompress E ?z] => destruct (decompress E z) eqn:?; cbn [XfrModel.opt bind app] in Hx; try discriminate end; try apply Ok_inj in Hx; subst;
    (split; [try reflexivity; repeat eexists; try eassumption; apply In_pp; cbn; tauto|try reflexivity; repeat eexists; try eassumption; apply In_pp; cbn; tauto]).
Qed.

Lemma smul_B_inj (x y : PF E) : B <> m0 -> smul x B = smul y B -> x = y.
Proof.
  intros NB Q. assert (Y : smul (fsub x y) B = m0) by (transitivity (msub (smul x B) (smul y B)); [module_eq|now apply msub_0]).
  destruct (smul_eq_0 _ _ Y) as [Z|Z]; [now apply (fsub_0 (PF E))|contradiction].
Qed.
Lemma lock_message (a : PF E) ct com (m r v s : PF E) : same_message B Bb (smul a B) ct com m r -> com = madd (smul v B) (smul s Bb) ->
  elgamal_partial_decrypt ct a = smul v B \/ dlog_relation E (fsub m v, fsub r s).
Proof.
  intros [Ee Oc] Ec. unfold encrypts in Ee. subst ct. unfold SigmaSpec.opens in Oc. destruct (feqb_spec m v) as [->|N].
  - left. unfold elgamal_partial_decrypt. cbn [fst snd]. module_eq.
  - right. split; cbn [fst snd]; [intros Z; apply N; now apply (fsub_0 (PF E))|].
    transitivity (msub (madd (smul m B) (smul r Bb)) (madd (smul v B) (smul s Bb))); [module_eq|]. apply msub_0. congruence.
Qed.
(** What the locks of such a proof say is what the tracer gets: if the locks have the
    same contents as the commitments (which such a proof guarantees, C28), and the
    commitments are to the halves of [v] and to the type [t], the tracer gets exactly
    the amount [v] and a type with the scalar of [t], or a relation between the
    generators of the commitments is at hand. *)
Theorem C50_checked_memos_tell_the_truth :
  forall (r : bar E) (m : tmemo) (a : PF E) (c : BF) sx v' t' attrs pk q, B <> m0 -> char_ge (PF E) q -> (2 ^ 32 <= q)%Z -> v' < 2 ^ 64 ->
  extract_tracing_info H E as_scalar BB [(r, m)] (tk_dec E (keygen a c sx)) = Ok [(v', t', attrs, pk)] ->
  (forall cl ch el eh gl gh m1 r1 s1 m2 r2 s2 v,
     b_amount r = AConf cl ch -> tm_amount E m = Some (el, eh) -> decompress E cl = Some gl -> decompress E ch = Some gh -> v < 2 ^ 64 ->
     same_message B Bb (smul a B) el gl m1 r1 -> same_message B Bb (smul a B) eh gh m2 r2 ->
     gl = pedersen E (Z.of_N (v mod 2 ^ 32)) s1 -> gh = pedersen E (Z.of_N (v / 2 ^ 32)) s2 ->
     v' = v \/ dlog_relation E (fsub m1 (fofN (v mod 2 ^ 32)), fsub r1 s1) \/ dlog_relation E (fsub m2 (fofN (v / 2 ^ 32)), fsub r2 s2)) /\
  (forall ct e g m1 r1 s1 t,
     b_type r = TConf ct -> tm_type E m = Some e -> decompress E ct = Some g -> same_message B Bb (smul a B) e g m1 r1 ->
     g = madd (smul (as_scalar t) B) (smul s1 Bb) ->
     as_scalar t' = as_scalar t \/ dlog_relation E (fsub m1 (as_scalar t), fsub r1 s1)) /\
  (forall v, b_amount r = APlain v -> tm_amount E m = None -> v' = v) /\ (forall t, b_type r = TPlain t -> tm_type E m = None -> t' = t) /\ pk = b_pk r.
Proof.
  intros r m a c sx v' t' attrs pk q NB Hq Hq2 Hv' Q. unfold extract_tracing_info in Q. cbn [mapM] in Q. apply bind_inv in Q. destruct Q as [y [Q Q']]. apply Ok_inj in Q'. injection Q' as ->.
  unfold trace_one in Q. apply bind_inv in Q. destruct Q as [[[ao to] attrs'] [D Q]]. apply bind_inv in Q. destruct Q as [v0 [Qa Q]]. apply bind_inv in Q. destruct Q as [t1 [Qt Q]]. apply Ok_inj in Q. injection Q as -> -> _ <-.
  unfold tm_decrypt in D. cbn [keygen tk_dec dk_rec dk_attr dk_lock] in D. apply bind_inv in D. destruct D as [ap [D1 D]]. apply bind_inv in D. destruct D as [tp [D2 D]]. destruct (Nat.ltb _ _) in D; [discriminate|].
  apply bind_inv in D. destruct D as [al [_ D]]. apply bind_inv in D. destruct D as [ok [_ D]]. destruct (forallb _ ok); [|discriminate]. apply Ok_inj in D. injection D as Ea Et _.
  split; [|split; [|split; [|split]]].
  - intros cl ch el eh gl gh m1 r1 s1 m2 r2 s2 v Hb Hm Hl Hh Hv S1 S2 G1 G2. unfold pedersen in G1, G2.
    destruct (lock_message a el gl m1 r1 _ s1 S1 G1) as [P1|R1]; [|right; left; exact R1]. destruct (lock_message a eh gh m2 r2 _ s2 S2 G2) as [P2|R2]; [|right; right; exact R2]. left.
    rewrite Hm in Qa. unfold tm_amount_part in D1. rewrite Hm in D1. destruct (Nat.ltb _ _) in D1; [discriminate|]. cbv zeta in D1. apply bind_inv in D1. destruct D1 as [[] [W D1]]. apply Ok_inj in D1. subst ap. cbn [fst] in Ea. subst ao. apply Ok_inj in Qa.
    rewrite Qa in W. unfold verify_amount in W. rewrite Hm, u64_pair_spec, P1, P2 in W. destruct (meqb_spec (smul (fofN (v' mod 2 ^ 32)) B) (smul (fofZ (Z.of_N (v mod 2 ^ 32))) B)) as [X1|]; [|discriminate].
    destruct (meqb_spec (smul (fofN (v' / 2 ^ 32)) B) (smul (fofZ (Z.of_N (v / 2 ^ 32))) B)) as [X2|]; [|discriminate]. apply (smul_B_inj _ _ NB) in X1, X2. unfold fofN in X1, X2.
    assert (B1 : v mod 2 ^ 32 < 2 ^ 32) by (apply N.mod_lt; discriminate). assert (B2 : v' mod 2 ^ 32 < 2 ^ 32) by (apply N.mod_lt; discriminate).
    assert (B3 : v / 2 ^ 32 < 2 ^ 32) by (apply N.div_lt_upper_bound; [discriminate|exact Hv]). assert (B4 : v' / 2 ^ 32 < 2 ^ 32) by (apply N.div_lt_upper_bound; [discriminate|exact Hv']).
    apply (fofZ_inj (PF E) q _ _ Hq) in X1, X2; [|clear -B1 B2 B3 B4 Hq2; lia..]. rewrite (N.div_mod v (2 ^ 32)), (N.div_mod v' (2 ^ 32)) by discriminate. f_equal; [f_equal|]; apply N2Z.inj; assumption.
  - intros ct e g m1 r1 s1 t Hb Hm Hl S1 G1. destruct (lock_message a e g m1 r1 _ s1 S1 G1) as [P1|R1]; [left|right; exact R1].
    rewrite Hm in Qt. unfold tm_type_part in D2. rewrite Hm in D2. destruct (Nat.ltb _ _) in D2; [discriminate|]. cbv zeta in D2. apply bind_inv in D2. destruct D2 as [[] [W D2]]. apply Ok_inj in D2. subst tp. cbn [fst] in Et. subst to. apply Ok_inj in Qt.
    rewrite Qt in W. unfold verify_asset_type in W. rewrite Hm, P1 in W. destruct (meqb_spec (smul (as_scalar t) B) (smul (as_scalar t') B)) as [X|]; [|discriminate]. apply (smul_B_inj _ _ NB) in X. congruence.
  - intros v Hb Hm. rewrite Hm, Hb in Qa. now apply Ok_inj in Qa.
  - intros t Hb Hm. rewrite Hm, Hb in Qt. now apply Ok_inj in Qt.
  - reflexivity.
Qed.
End Trace.

(** ** A concrete case *)
(** A hidden input and a transparent output, both traced with one key, on the group of
    XfrToy; the proofs of the amounts are not looked at. *)
From Verif Require Import Zp Primality XfrToy.
Local Open Scope N_scope.
Definition case_o : oracles toy := mkOracles toy unit unit unit (fun _ => true) (fun _ => true) (fun _ => true) eq_refl eq_refl eq_refl.
Definition case_bg : Mod RistrettoFr := self_mod RistrettoFr.
Definition case_sc (t : N) : PF toy := fofN (t mod 1000).
Definition case_sx : bytes := clamp (le_bytes 32 (2 ^ 200 + 77)).
Definition case_key : tkeypair toy (BG := case_bg) := tk_generate toy_h toy (BG := case_bg) f1 (fofN 5 : PF toy) (fofN 7 : RistrettoFr) case_sx.
Definition case_policy (asset : bool) : policy toy (BG := case_bg) unit := mkPol toy unit (tk_enc toy case_key) asset None.
Definition case_open (conf : bool) : oar toy :=
  let v := 2 ^ 40 + 7 in let t := 2 ^ 250 + 3 in
  if conf then mkOar toy (@mkBar toy (@AConf toy (pedersen toy (Z.of_N v mod 2 ^ 32) (fofN 11)) (pedersen toy (Z.of_N v / 2 ^ 32) (fofN 12)))
                                (@TConf toy (madd (smul (case_sc t) (gB toy)) (smul (fofN 13) (gBb toy)))) 99) v (fofN 11) (fofN 12) t (fofN 13)
  else mkOar toy (@mkBar toy (@APlain toy v) (@TPlain toy t) 77) v f0 f0 t f0.
Definition case_es (n : nat) : bytes := le_bytes 32 (2 ^ 190 + N.of_nat n).
Definition case_hrec (conf asset : bool) : hrec toy (BG := case_bg) unit unit :=
  match ar_traced_no_identity toy_h toy case_sc unit unit case_es (case_open conf) [case_policy asset] with
  | Ok r => mkHr toy unit unit r case_es [[]]
  | _ => mkHr toy unit unit (ar_untraced toy unit unit (case_open conf)) case_es []
  end.
Definition case_chal (t : transcript (F := PF toy) (G := PG toy)) : PF toy := fofN (N.of_nat (length t) + 3).
Definition case_body (asset : bool) : tbody toy case_o (BG := case_bg) unit :=
  match gen_traced_body toy case_o case_sc unit unit case_chal [] (fun n k => fofN (N.of_nat (n + k) + 2)) (Ok (AssetMix toy case_o tt))
          [h_rec toy unit unit (case_hrec true asset)] [h_rec toy unit unit (case_hrec false true)] with
  | Ok b => b
  | _ => mkTb toy case_o unit (mkXbody toy case_o [] [] (NoProof toy case_o)) [] [] [] [] []
  end.
Definition case_np (asset : bool) : npol toy (BG := case_bg) unit unit := mkNp toy unit unit true [[case_policy asset]] [None] [[case_policy true]] [None].
Definition case_ac (_ : unit) (_ : case_bg) (_ : unit) (_ : list (case_bg * case_bg)) (_ : unit) : res unit := Err.
Example C50_records_honest : forall conf asset, honest_record toy_h toy case_sc unit unit (case_hrec conf asset) /\ honest_draws toy unit unit (case_hrec conf asset) /\
  honest_attrs toy (f1 : case_bg) unit unit (case_hrec conf asset).
Proof.
  intros conf asset. assert (Hc : consistent toy case_sc (case_open conf)).
  { unfold consistent, case_open. destruct conf; cbv zeta; cbn [o_bar b_amount b_type o_amount o_blind_lo o_blind_hi o_type o_type_blind compress toy].
    - split; [vm_compute; reflexivity|]. split; right; reflexivity.
    - split; [vm_compute; reflexivity|]. split; left; repeat split. }
  split; [|split].
  - apply (C50_library_records toy_h toy case_sc unit unit) with (es := case_es) (o := case_open conf) (ps := [case_policy asset]); [exact Hc|reflexivity].
  - split; [destruct conf; vm_compute; reflexivity|]. intros n. split; [apply lle_len|apply le_lt].
  - repeat constructor.
Qed.
Lemma case_shape asset :
  tb_body toy case_o unit (case_body asset) = mkXbody toy case_o [o_bar toy (case_open true)] [o_bar toy (case_open false)] (AssetMix toy case_o tt) /\
  tb_memos toy case_o unit (case_body asset) = [ar_memos toy unit unit (h_rec toy unit unit (case_hrec true asset)); ar_memos toy unit unit (h_rec toy unit unit (case_hrec false true))].
Proof.
  destruct (C50_honest_proofs_made toy_h toy case_o case_sc (f1 : case_bg) unit unit unit case_ac case_chal [] (fun n k => fofN (N.of_nat (n + k) + 2)) [case_hrec true asset] [case_hrec false true]) as [tp Htp].
  - repeat constructor; apply C50_records_honest.
  - unfold case_body, gen_traced_body. cbn [bind]. cbn [map] in Htp. rewrite Htp. split; reflexivity.
Qed.
Example C50_case_accepted : batch_verify_traced_bodies toy case_o case_sc unit unit unit case_ac case_chal [] (fun k => fofN (N.of_nat k + 9)) [case_body true] [case_np true] = Ok tt.
Proof. vm_compute. reflexivity. Qed.
Example C50_case_traced : trace_assets toy_h toy case_o case_sc (f1 : case_bg) unit (case_body true) case_key =
  Ok [(2 ^ 40 + 7, 2 ^ 250 + 3, [], 99); (2 ^ 40 + 7, 2 ^ 250 + 3, [], 77)].
Proof. vm_compute. reflexivity. Qed.
(** The same transfer with a policy that traces nothing on the hidden input. *)
Example C50_case_identity_only :
  batch_verify_traced_bodies toy case_o case_sc unit unit unit case_ac case_chal [] (fun k => fofN (N.of_nat k + 9)) [case_body false] [case_np false] = Ok tt /\
  trace_assets toy_h toy case_o case_sc (f1 : case_bg) unit (case_body false) case_key = Err.
Proof. split; vm_compute; reflexivity. Qed.
(** The slot of the transparent output can be forged. *)
Example C50_case_forged :
  exists b', same_but_memos toy case_o unit (case_body true) b' /\
  batch_verify_traced_bodies toy case_o case_sc unit unit unit case_ac case_chal [] (fun k => fofN (N.of_nat k + 9)) [b'] [case_np true] = Ok tt /\
  trace_assets toy_h toy case_o case_sc (f1 : case_bg) unit b' case_key = Ok [(123456789, 42, [], 77)].
Proof.
  destruct (C50_false_values_refuted toy_h toy case_o case_sc (f1 : case_bg) unit unit unit case_ac case_chal [] (case_body true) (case_np true) (fun k => fofN (N.of_nat k + 9)) (fofN 5 : PF toy) (fofN 7 : RistrettoFr) case_sx
    1 0 (o_bar toy (case_open false)) (case_policy true) (hd (mkTm toy (tk_enc toy case_key) None None [] (mkHc [] [])) (ar_memos toy unit unit (h_rec toy unit unit (case_hrec false true)))) 123456789 42) as [b' [S1 [S2 S3]]].
  - intros Q. apply (f_equal fst) in Q. exact (F_1_neq_0 (f_th RistrettoFr) Q).
  - exact toy_h_ok.
  - eexists. split; [|reflexivity]. split; [apply lle_len|apply le_lt].
  - exact C50_case_accepted.
  - destruct (case_shape true) as [S1 S2]. split; [now rewrite S1|]. split; [exists [case_policy true]; split; reflexivity|]. rewrite S2. eexists. split; reflexivity.
  - left. reflexivity.
  - reflexivity.
  - reflexivity.
  - vm_compute. reflexivity.
  - exists b'. split; [exact S1|]. split; [|exact S3]. rewrite S2. exact C50_case_accepted.
Qed.
Print Assumptions C50_library_records.
Print Assumptions C50_honest_proofs_made.
Print Assumptions C50_honest_transfers_accepted.
Print Assumptions C50_honest_transfers_are_traced_partial.
Print Assumptions C50_identity_only_policy_refuted.
Print Assumptions C50_verifier_reads_only_checked_slots.
Print Assumptions C50_silent_transfers_refuted.
Print Assumptions C50_false_values_refuted.
Print Assumptions C50_malicious_memo_panics.
Print Assumptions C50_blocked_tracing_refuted.
Print Assumptions C50_checked_locks.
Print Assumptions C50_checked_memos_tell_the_truth.

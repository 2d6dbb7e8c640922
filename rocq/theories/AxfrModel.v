(** Model of anonymous transfers: the record and key helpers of
    api/src/anon_xfr/mod.rs, the note builder and verifier and the constraint
    system of api/src/anon_xfr/abar_to_abar.rs.

    Representation and simplifications.
    - A public key is its three field scalars (keys.rs 125-140) and a secret key
      its two (keys.rs 78-85); key equality is equality of the scalars (their
      packing is injective, see C52).
    - Asset types are numbers, [as_scalar] is a parameter (xfr/structs.rs 44-64).
    - Owner memos are opaque byte strings.
    - [folding] is the part of the circuit made by [prove_address_folding_in_cs]
      (address_folding.rs 177-580): an arbitrary gadget over the variables of the
      public and the secret key.  Its secret-key comparison is modelled in
      FoldModel.v.
    - [fv] stands for the PLONK verifier and the folding verifier together. *)
From Coq Require Import List ZArith NArith Bool.
From Verif Require Import Base Field PField Power TurboModel RescueModel MixModel.
Import ListNotations.
Local Open Scope F_scope.
Local Open Scope cs_scope.

Section Axfr.
Context (F : PField) (P : rescue_instance F) (e : N) (as_scalar : N -> F).

Definition pubkey := (F * F * F)%type.
Definition seckey := (F * F)%type.
Record keypair := mkKp { kp_pk : pubkey; kp_sk : seckey }.

(** structs.rs 22-32 [MTNode] (the two flags are u8), 57-67 [MTLeafInfo], 80-89
    [OpenAnonAssetRecord]. *)
Record node := mkNode { n_s1 : F; n_s2 : F; n_left : N; n_right : N }.
Record leaf_info := mkLeaf { l_path : list node; l_root : F; l_version : N; l_uid : N }.
Record oabar := mkOabar { o_amount : N; o_type : N; o_blind : F; o_pk : pubkey;
  o_memo : option (list N); o_leaf : option leaf_info }.

(** [hash.rescue(&[a, b, c, d])[0]]: the state has four entries, so the call does
    not panic; the default 0 is never used for the instances considered. *)
Definition hash (a b c d : F) : F :=
  match rescue F P [a; b; c; d] with Ok (h :: _) => h | _ => 0 end.

(** mod.rs 192-222 [nullify]; 249-270 [commit]. *)
Definition nullify (k : keypair) (amount ty uid : N) : F :=
  let '(p0, p1, p2) := kp_pk k in
  let cur := hash (fofN uid * fofZ (2 ^ 64) + fofN amount) (as_scalar ty) p0 p1 in
  hash cur p2 (fst (kp_sk k)) (snd (kp_sk k)).
Definition commit (pk : pubkey) (blind : F) (amount ty : N) : F :=
  let '(p0, p1, p2) := pk in
  hash (hash blind (fofN amount) (as_scalar ty) p0) p1 p2 0.

(** mod.rs 57-64 [check_inputs]. *)
Definition pk_eqb (a b : pubkey) : bool :=
  let '(a0, a1, a2) := a in let '(b0, b1, b2) := b in
  feqb a0 b0 && feqb a1 b1 && feqb a2 b2.
Fixpoint check_inputs (l : list oabar) (k : keypair) : res unit :=
  match l with
  | [] => Ok tt
  | r :: l' =>
      if (match o_leaf r with None => true | Some _ => false end) || negb (pk_eqb (kp_pk k) (o_pk r))
      then Err else check_inputs l' k
  end.
(** mod.rs 109-127 [check_roots]; the index panics on the empty list. *)
Fixpoint same_roots (root : F) (l : list oabar) : res unit :=
  match l with
  | [] => Ok tt
  | r :: l' => match o_leaf r with
               | None => Err
               | Some i => if feqb (l_root i) root then same_roots root l' else Err
               end
  end.
Definition check_roots (l : list oabar) : res unit :=
  match l with
  | [] => Panic
  | r :: l' => match o_leaf r with None => Err | Some i => same_roots (l_root i) l' end
  end.

(** structs.rs 279-311 [PayerWitness], [PayeeWitness]; abar_to_abar.rs 39-60. *)
Record payer_w := mkPayer { p_amount : N; p_type : F; p_uid : N; p_path : list node; p_blind : F }.
Record payee_w := mkPayee { q_amount : N; q_blind : F; q_type : F; q_pk : pubkey }.
(** abar_to_abar.rs 62-75 [AXfrBody], 50-60 [AXfrPreNote]. *)
Record axfr_body := mkBody { b_inputs : list F; b_outputs : list F; b_root : F; b_version : N;
  b_fee : N; b_memos : list (list N) }.
Record prenote := mkPre { pre_body : axfr_body; pre_payers : list payer_w; pre_payees : list payee_w;
  pre_key : keypair }.

(** abar_to_abar.rs 109-120: [unwrap] on the leaf information, after check_inputs. *)
Definition payer_of (r : oabar) : res payer_w :=
  match o_leaf r with
  | None => Panic
  | Some i => Ok (mkPayer (o_amount r) (as_scalar (o_type r)) (l_uid i) (l_path i) (o_blind r))
  end.
Definition payee_of (r : oabar) : payee_w := mkPayee (o_amount r) (o_blind r) (as_scalar (o_type r)) (o_pk r).
Definition nullifier_of (k : keypair) (r : oabar) : res F :=
  match o_leaf r with None => Panic | Some i => Ok (nullify k (o_amount r) (o_type r) (l_uid i)) end.
(** abar_to_abar.rs 79-162 [init_anon_xfr_note]. *)
Definition init_anon_xfr_note (ins outs : list oabar) (fee : N) (k : keypair) : res prenote :=
  match ins, outs with
  | i0 :: _, _ :: _ =>
      bind (check_inputs ins k) (fun _ =>
      bind (check_asset_amount (map (fun r => (o_amount r, o_type r)) ins)
                                (map (fun r => (o_amount r, o_type r)) outs) fee) (fun _ =>
      bind (check_roots ins) (fun _ =>
      bind (Base.mapM (nullifier_of k) ins) (fun nfs =>
      bind (Base.mapM payer_of ins) (fun payers =>
      bind (Base.mapM (fun r => match o_memo r with Some m => Ok m | None => Err end) outs) (fun memos =>
      match o_leaf i0 with
      | None => Panic
      | Some i =>
          Ok (mkPre (mkBody nfs (map (fun r => commit (o_pk r) (o_blind r) (o_amount r) (o_type r)) outs)
                            (l_root i) (l_version i) fee memos)
                    payers (map payee_of outs) k)
      end))))))
  | _, _ => Err
  end.

(** ** The constraint system *)
(** structs.rs 239-277 (variable records). *)
Record node_v := mkNodeV { nv_s1 : nat; nv_s2 : nat; nv_left : nat; nv_right : nat }.
Record payer_v := mkPayerV { pv_uid : nat; pv_amount : nat; pv_type : nat; pv_path : list node_v; pv_blind : nat }.
Definition pk_v := (nat * nat * nat)%type.
Definition sk_v := (nat * nat)%type.
Record payee_v := mkPayeeV { qv_amount : nat; qv_blind : nat; qv_type : nat; qv_pk : pk_v }.

(** [cs.rescue_hash(..)[0]]. *)
Definition hash_cs (a b c d : nat) : CS F nat :=
  os <- rescue_hash F P e [a; b; c; d] ;; ret (nth 0 os 0%nat).

(** mod.rs 230-246 [commit_in_cs]; 273-294 [nullify_in_cs]. *)
Definition commit_in_cs (blind amount ty : nat) (pk : pk_v) : CS F nat :=
  let '(p0, p1, p2) := pk in
  cur <- hash_cs blind amount ty p0 ;; hash_cs cur p1 p2 zero_var.
Definition nullify_in_cs (sk : sk_v) (uid_amount ty : nat) (pk : pk_v) : CS F nat :=
  let '(p0, p1, p2) := pk in
  cur <- hash_cs uid_amount ty p0 p1 ;; hash_cs cur p2 (fst sk) (snd sk).

(** mod.rs 297-318 [add_merkle_path_variables]. *)
Definition new_node (n : node) : CS F node_v :=
  s1 <- new_variable F (n_s1 n) ;; s2 <- new_variable F (n_s2 n) ;;
  l <- new_variable F (fofN (n_left n)) ;; r <- new_variable F (fofN (n_right n)) ;;
  ret (mkNodeV s1 s2 l r).
Fixpoint boolean_nodes (ns : list node_v) : CS F unit :=
  match ns with
  | [] => ret tt
  | n :: ns' =>
      insert_boolean_gate F (nv_left n) ;;
      insert_boolean_gate F (nv_right n) ;;
      s <- add F (nv_left n) (nv_right n) ;;
      insert_boolean_gate F s ;;
      boolean_nodes ns'
  end.
Definition add_merkle_path_variables (path : list node) : CS F (list node_v) :=
  ns <- RescueModel.mapM F new_node path ;; boolean_nodes ns ;; ret ns.

(** mod.rs 325-345 [sort]; 348-373 [compute_merkle_root_variables]. *)
Definition sort (n s1 s2 l r : nat) : CS F (nat * nat * nat) :=
  left <- select F s1 n l ;;
  right <- select F s2 n r ;;
  sum <- add F left right ;;
  mid <- linear_combine F n s1 s2 sum 1 1 1 (- (1)) ;;
  ret (left, mid, right).
Fixpoint merkle_loop (n : nat) (path : list node_v) : CS F nat :=
  match path with
  | [] => ret n
  | p :: path' =>
      st <- sort n (nv_s1 p) (nv_s2 p) (nv_left p) (nv_right p) ;;
      n' <- hash_cs (fst (fst st)) (snd (fst st)) (snd st) zero_var ;;
      merkle_loop n' path'
  end.
Definition compute_merkle_root_variables (uid commitment : nat) (path : list node_v) : CS F nat :=
  n <- hash_cs uid commitment zero_var zero_var ;; merkle_loop n path.

(** abar_to_abar.rs 789-810 [add_payers_witnesses]; 813-839 [add_payees_witnesses]. *)
Definition add_payer (p : payer_w) : CS F payer_v :=
  uid <- new_variable F (fofN (p_uid p)) ;;
  amount <- new_variable F (fofN (p_amount p)) ;;
  blind <- new_variable F (p_blind p) ;;
  path <- add_merkle_path_variables (p_path p) ;;
  ty <- new_variable F (p_type p) ;;
  ret (mkPayerV uid amount ty path blind).
Definition new_pk (pk : pubkey) : CS F pk_v :=
  let '(x0, x1, x2) := pk in
  a <- new_variable F x0 ;; b <- new_variable F x1 ;; c <- new_variable F x2 ;; ret (a, b, c).
Definition new_sk (sk : seckey) : CS F sk_v :=
  a <- new_variable F (fst sk) ;; b <- new_variable F (snd sk) ;; ret (a, b).
Definition add_payee (q : payee_w) : CS F payee_v :=
  amount <- new_variable F (fofN (q_amount q)) ;;
  blind <- new_variable F (q_blind q) ;;
  ty <- new_variable F (q_type q) ;;
  pk <- new_pk (q_pk q) ;;
  ret (mkPayeeV amount blind ty pk).

(** abar_to_abar.rs 561-613, the body of the loop over the payers. *)
Definition payer_cs (pk : pk_v) (sk : sk_v) (root : option nat) (p : payer_v) : CS F (option nat) :=
  com <- commit_in_cs (pv_blind p) (pv_amount p) (pv_type p) pk ;;
  ua <- linear_combine F (pv_uid p) (pv_amount p) zero_var zero_var (fofZ (2 ^ 64)) 1 0 0 ;;
  nf <- nullify_in_cs sk ua (pv_type p) pk ;;
  tmp <- compute_merkle_root_variables (pv_uid p) com (pv_path p) ;;
  range_check F (pv_amount p) 64 ;;
  root' <- match root with
           | Some r => equal F r tmp ;; ret (Some r)
           | None => ret (Some tmp)
           end ;;
  prepare_pi_variable F nf ;;
  ret root'.
(** A loop carrying a value. *)
Fixpoint foldM {A B} (f : B -> A -> CS F B) (b : B) (l : list A) : CS F B :=
  match l with
  | [] => ret b
  | a :: l' => b' <- f b a ;; foldM f b' l'
  end.
Definition payers_cs (pk : pk_v) (sk : sk_v) (root : option nat) (l : list payer_v) : CS F (option nat) :=
  foldM (payer_cs pk sk) root l.
(** abar_to_abar.rs 615-632, the loop over the payees. *)
Definition payee_cs (_ : unit) (q : payee_v) : CS F unit :=
  com <- commit_in_cs (qv_blind q) (qv_amount q) (qv_type q) (qv_pk q) ;;
  range_check F (qv_amount q) 64 ;;
  prepare_pi_variable F com.
Definition payees_cs (l : list payee_v) : CS F unit := foldM payee_cs tt l.

(** abar_to_abar.rs 529-672 [build_multi_xfr_cs] up to the padding, in two parts:
    everything before asset mixing, and the whole.  Returns the variables. *)
Section Build.
Context (folding : pk_v -> sk_v -> CS F unit).
Record layout := mkLayout { ly_payers : list payer_v; ly_payees : list payee_v; ly_pk : pk_v; ly_sk : sk_v;
  ly_root : nat; ly_fee : nat }.
Definition xfr_records (payers : list payer_w) (payees : list payee_w) (k : keypair) (fee : N) : CS F layout :=
  pv <- RescueModel.mapM F add_payer payers ;;
  qv <- RescueModel.mapM F add_payee payees ;;
  pk <- new_pk (kp_pk k) ;;
  sk <- new_sk (kp_sk k) ;;
  root <- payers_cs pk sk None pv ;;
  (* [root_var.unwrap()]: there is at least one payer *)
  let r := match root with Some r => r | None => 0%nat end in
  prepare_pi_variable F r ;;
  payees_cs qv ;;
  fv <- new_variable F (fofN fee) ;;
  prepare_pi_variable F fv ;;
  folding pk sk ;;
  ret (mkLayout pv qv pk sk r fv).
Definition in_pairs (ly : layout) : list (nat * nat) := map (fun p => (pv_type p, pv_amount p)) (ly_payers ly).
Definition out_pairs (ly : layout) : list (nat * nat) := map (fun q => (qv_type q, qv_amount q)) (ly_payees ly).
Definition xfr_cs (payers : list payer_w) (payees : list payee_w) (k : keypair) (fee : N) (fee_type : F) : CS F layout :=
  ly <- xfr_records payers payees k fee ;;
  asset_mixing F (in_pairs ly) (out_pairs ly) fee_type (ly_fee ly) ;;
  ret ly.
Definition build_multi_xfr_cs (payers : list payer_w) (payees : list payee_w) (k : keypair) (fee : N) (fee_type : F)
  : res (tcs F) :=
  match payers, payees with
  | _ :: _, _ :: _ => Ok (pad F (snd (xfr_cs payers payees k fee fee_type (cs_new F))))
  | _, _ => Panic
  end.
End Build.

(** ** Notes *)
(** abar_to_abar.rs 421-431 [AXfrPubInputs::to_vec] (the folding inputs are
    appended by [verify_xfr], 334-352). *)
Definition pub_inputs (b : axfr_body) (root : F) (fold_inputs : list F) : list F :=
  b_inputs b ++ [root] ++ b_outputs b ++ [fofN (b_fee b)] ++ fold_inputs.
(** abar_to_abar.rs 195-235 [verify_anon_xfr_note]: [fold_verify] yields the
    folding public inputs, [plonk_verify] is the proof check on the public
    inputs. *)
Definition verify_anon_xfr_note {Pf Fi} (fold_verify : Fi -> res (list F)) (plonk_verify : list F -> Pf -> res unit)
    (b : axfr_body) (pf : Pf) (fi : Fi) (merkle_root : F) : res unit :=
  if feqb merkle_root (b_root b) then
    bind (fold_verify fi) (fun fold_inputs => plonk_verify (pub_inputs b merkle_root fold_inputs) pf)
  else Err.
End Axfr.

(** Model of the anonymous credentials, crypto/src/anon_creds.rs, of their
    confidential disclosure, crypto/src/confidential_anon_creds.rs, and of the
    verification entry points of api/src/anon_creds.rs.

    Representation and simplifications.
    - The pairing groups are modules over the scalar field and the target group is
      written additively; the pairing is an argument [e].
    - A Merlin transcript is the list of the messages appended so far and a
      challenge an arbitrary function [chal] of that list; fixed labels are numbers.
    - A random generator is the stream of the scalars it will return; the draws of
      group elements of [issuer_keygen] are arguments.
    - [multi_exp] is the sum of the products of the zipped vectors (see C31). *)
From Coq Require Import List Arith NArith Bool.
From Verif Require Import Base Field.
Import ListNotations.
Local Open Scope F_scope.

Section Ac.
Context {F : Field} {G1 G2 GT : Mod F}.
Context (e : G1 -> G2 -> GT) (base1 : G1) (base2 : G2).

(** anon_creds.rs 16-27 [CredentialIssuerPK], 38-45 [CredentialIssuerSK]. *)
Record issuer_pk := mkIpk { gen2 : G2; xx2 : G2; zz1 : G1; zz2 : G2; yy2 : list G2 }.
Record issuer_sk := mkIsk { gen1 : G1; sk_x : F; sk_y : list F }.
(** anon_creds.rs 48-63 [CredentialSig] and its default; 93-101 [CredentialComm] is a wrapper. *)
Record sig := mkSig { sigma1 : G1; sigma2 : G1 }.
Definition sig_default : sig := mkSig m0 m0.
(** anon_creds.rs 66-74 [Credential]. *)
Record credential := mkCred { c_sig : sig; c_attrs : list F; c_ipk : issuer_pk }.
(** anon_creds.rs 155-162 [CredentialCommRandomizer]. *)
Record randomizer := mkRand { rd_r : F; rd_t : F }.
(** anon_creds.rs 134-142 [CredentialPoK]. *)
Record pok := mkPok { blinding : G2; resp_t : F; resp_sk : F; resp_attrs : list F }.
(** anon_creds.rs 144-152 [Attribute]. *)
Inductive attribute := Revealed (a : F) | Hidden (a : option F).
(** anon_creds.rs 31-33 [num_attrs]. *)
Definition num_attrs (p : issuer_pk) : nat := length (yy2 p).
(** anon_creds.rs 76-90 [get_revealed_attributes]. *)
Definition get_revealed_attributes (c : credential) (map_ : list bool) : res (list F) :=
  if negb (Nat.eqb (length map_) (length (c_attrs c))) then Err
  else Ok (map fst (filter (fun ab => snd ab) (combine (c_attrs c) map_))).
(** anon_creds.rs 103-115 [CredentialComm::new]. *)
Definition comm_new (s : sig) (r : randomizer) : sig :=
  mkSig (rd_r r *: sigma1 s)%M (rd_r r *: (sigma2 s + rd_t r *: sigma1 s))%M.

(** anon_creds.rs 176-208 [issuer_keygen] with all the draws given. *)
Definition issuer_keygen (x z : F) (g1 : G1) (g2 : G2) (ys : list F) : issuer_sk * issuer_pk :=
  (mkIsk g1 x ys, mkIpk g2 (x *: g2)%M (z *: g1)%M (z *: g2)%M (map (fun y => (y *: g2)%M) ys)).
(** anon_creds.rs 212-219 [user_keygen]: secret and public key. *)
Definition user_keygen (p : issuer_pk) (sk : F) : F * G1 := (sk, (sk *: zz1 p)%M).
(** anon_creds.rs 224-248 [grant_credential] with the draw [u]. *)
Definition grant_credential (u : F) (k : issuer_sk) (upk : G1) (attrs : list F) : res sig :=
  if negb (Nat.eqb (length (sk_y k)) (length attrs)) then Err else
  let exponent := fold_left (fun x ay => x + fst ay * snd ay) (combine attrs (sk_y k)) (sk_x k) in
  Ok (mkSig (u *: gen1 k)%M (u *: (upk + exponent *: gen1 k))%M).

(** ** Transcripts *)
Inductive msg := Tag (n : N) | El1 (g : G1) | El2 (g : G2) | Com1 (g : G1) | Com2 (g : G2) | Bytes (l : list N).
Definition transcript := list msg.
Definition oracle := transcript -> F.
Definition rng := nat -> F.
Definition skipr (k : nat) (g : rng) : rng := fun n => g (k + n)%nat.
(** anon_creds.rs 405-418 [init_pok_transcript]; confidential_anon_creds.rs 44-62
    [init_sigma_pairing]. *)
Definition init_pok (t : transcript) (p : issuer_pk) (cm : sig) : transcript :=
  t ++ [Tag 10; Tag 11; El1 base1; El1 (zz1 p); El1 (sigma1 cm); El1 (sigma2 cm);
        El2 base2; El2 (gen2 p); El2 (xx2 p); El2 (zz2 p)] ++ map El2 (yy2 p).

(** ** Proofs of knowledge *)
(** anon_creds.rs 431-449: the loop over the zipped attributes; the blinding, the draws [gamma]
    and the generator afterwards. *)
Fixpoint blind_loop (ys : list G2) (attrs : list attribute) (g : rng) (acc : G2) : res (G2 * list F * rng) :=
  match ys, attrs with
  | y :: ys', a :: attrs' =>
      match a with
      | Hidden (Some _) =>
          bind (blind_loop ys' attrs' (skipr 1 g) (acc + g 0%nat *: y)%M) (fun r =>
          Ok (fst (fst r), g 0%nat :: snd (fst r), snd r))
      | Hidden None => Err
      | Revealed _ => blind_loop ys' attrs' g acc
      end
  | _, _ => Ok (acc, [], g)
  end.
(** anon_creds.rs 453-460: the responses; [next().unwrap()] panics when the draws run out. *)
Fixpoint resp_loop (c : F) (attrs : list attribute) (gamma : list F) : res (list F) :=
  match attrs with
  | [] => Ok []
  | Hidden (Some a) :: attrs' =>
      match gamma with
      | [] => Panic
      | x :: gamma' => bind (resp_loop c attrs' gamma') (fun l => Ok (c * a + x :: l))
      end
  | _ :: attrs' => resp_loop c attrs' gamma
  end.
(** anon_creds.rs 421-466 [prove_pok]. *)
Definition prove_pok (chal : oracle) (t : transcript) (g : rng) (usk : F) (p : issuer_pk) (tt_ : F) (attrs : list attribute) : res pok :=
  let beta1 := g 0%nat in let beta2 := g 1%nat in
  bind (blind_loop (yy2 p) attrs (skipr 2 g) (beta1 *: gen2 p + beta2 *: zz2 p)%M) (fun r =>
  let b := fst (fst r) in
  let c := chal (t ++ [Com2 b]) in
  bind (resp_loop c attrs (snd (fst r))) (fun l =>
  Ok (mkPok b (c * tt_ + beta1) (c * usk + beta2) l))).
(** anon_creds.rs 486-503: the scalars of the attributes. *)
Fixpoint attr_scalars (c : F) (attrs : list attribute) (resps : list F) : res (list F) :=
  match attrs with
  | [] => Ok []
  | Revealed a :: attrs' => bind (attr_scalars c attrs' resps) (fun l => Ok (a * c :: l))
  | Hidden _ :: attrs' =>
      match resps with
      | [] => Err
      | r :: resps' => bind (attr_scalars c attrs' resps') (fun l => Ok (r :: l))
      end
  end.
Definition multi_exp (s : list F) (l : list G2) : G2 := msum (map (fun xy => (fst xy *: snd xy)%M) (combine s l)).
(** anon_creds.rs 469-518 [verify_pok]. *)
Definition verify_pok (p : issuer_pk) (cm : sig) (pf : pok) (attrs : list attribute) (c : F) : res unit :=
  bind (attr_scalars c attrs (resp_attrs pf)) (fun l =>
  let p2 := multi_exp ([resp_t pf; c; resp_sk pf; fopp 1] ++ l) ([gen2 p; xx2 p; zz2 p; blinding pf] ++ yy2 p) in
  if meqb (e (sigma1 cm) p2) (e (c *: sigma2 cm)%M (gen2 p)) then Ok tt else Err).

(** ** Committing and opening *)
(** anon_creds.rs 265-272 [randomizer_gen]. *)
Definition randomizer_gen (g : rng) : randomizer * rng := (mkRand (g 0%nat) (g 1%nat), skipr 2 g).
(** anon_creds.rs 293-321 [commit]. *)
Definition commit (chal : oracle) (g : rng) (usk : F) (cr : credential) (rd : randomizer) (m : list N) : res (sig * pok) :=
  let cm := comm_new (c_sig cr) rd in
  let t := init_pok [Tag 1] (c_ipk cr) cm ++ [Bytes m] in
  bind (prove_pok chal t g usk (c_ipk cr) (rd_t rd) (map (fun a => Hidden (Some a)) (c_attrs cr))) (fun pf => Ok (cm, pf)).
(** anon_creds.rs 275-287 [commit_without_randomizer]. *)
Definition commit_without_randomizer (chal : oracle) (g : rng) (usk : F) (cr : credential) (m : list N) : res (sig * pok * randomizer) :=
  let (rd, g') := randomizer_gen g in
  bind (commit chal g' usk cr rd m) (fun r => Ok (r, rd)).
(** anon_creds.rs 324-340 [check_comm]. *)
Definition check_comm (chal : oracle) (p : issuer_pk) (cm : sig) (pf : pok) (m : list N) : res unit :=
  let t := init_pok [Tag 1] p cm ++ [Bytes m] in
  verify_pok p cm pf (repeat (Hidden None) (num_attrs p)) (chal (t ++ [Com2 (blinding pf)])).
(** anon_creds.rs 358-369: the attributes under a reveal map. *)
Definition reveal (attrs : list F) (map_ : list bool) : list attribute :=
  map (fun ab : F * bool => if snd ab then Revealed (fst ab) else Hidden (Some (fst ab))) (combine attrs map_).
(** anon_creds.rs 346-384 [open_comm]. *)
Definition open_comm (chal : oracle) (g : rng) (usk : F) (cr : credential) (cm : sig) (rd : randomizer) (map_ : list bool) : res pok :=
  if negb (Nat.eqb (length (c_attrs cr)) (length map_)) then Err else
  prove_pok chal (init_pok [Tag 2] (c_ipk cr) cm) g usk (c_ipk cr) (rd_t rd) (reveal (c_attrs cr) map_).
(** anon_creds.rs 250-262 [open_credential]. *)
Definition open_credential (chal : oracle) (g : rng) (usk : F) (cr : credential) (map_ : list bool) : res (sig * pok) :=
  let (rd, g') := randomizer_gen g in
  let cm := comm_new (c_sig cr) rd in
  bind (open_comm chal g' usk cr cm rd map_) (fun pf => Ok (cm, pf)).
(** anon_creds.rs 390-403 [verify_open]. *)
Definition verify_open (chal : oracle) (p : issuer_pk) (cm : sig) (pf : pok) (attrs : list attribute) : res unit :=
  verify_pok p cm pf attrs (chal (init_pok [Tag 2] p cm ++ [Com2 (blinding pf)])).
(** api anon_creds.rs, [ac_verify]: u32 attributes, None is hidden. *)
Definition of_option (a : option N) : attribute := match a with Some x => Revealed (fofN x) | None => Hidden None end.
Definition ac_verify (chal : oracle) (p : issuer_pk) (attrs : list (option N)) (cm : sig) (pf : pok) : res unit :=
  verify_open chal p cm pf (map of_option attrs).

(** ** Confidential disclosure *)
Definition ctext := (G1 * G1)%type.
(** elgamal.rs 56-67. *)
Definition encrypt (ek : G1) (m r : F) : ctext := ((r *: base1)%M, (m *: base1 + r *: ek)%M).
(** confidential_anon_creds.rs 100-110 [CACPoK], 112-120 [ConfidentialAC]. *)
Record cac_pok := mkCac { cac : pok; cm_ct : list ctext; resp_rands : list F }.
Definition ct_elems (f : G1 -> msg) (cts : list ctext) : transcript := flat_map (fun ct => [f (fst ct); f (snd ct)]) cts.
(** confidential_anon_creds.rs 63-97 [cac_init]. *)
Definition cac_init (t : transcript) (p : issuer_pk) (ek : G1) (cm : sig) (cts : list ctext) : transcript :=
  t ++ [Tag 12; El1 base1; El2 base2; El2 (gen2 p); El1 (zz1 p); El2 (zz2 p); El2 (xx2 p)] ++ map El2 (yy2 p)
    ++ [El1 ek; El1 (sigma1 cm); El1 (sigma2 cm)] ++ ct_elems El1 cts.
(** confidential_anon_creds.rs 149-160: one ciphertext per revealed attribute, its randomness, the generator. *)
Fixpoint enc_loop (ek : G1) (attrs : list F) (map_ : list bool) (g : rng) : list ctext * list F * rng :=
  match attrs, map_ with
  | a :: attrs', b :: map' =>
      if b then
        let r := enc_loop ek attrs' map' (skipr 1 g) in
        (encrypt ek a (g 0%nat) :: fst (fst r), g 0%nat :: snd (fst r), snd r)
      else enc_loop ek attrs' map' g
  | _, _ => ([], [], g)
  end.
(** confidential_anon_creds.rs 236-255: the loop over the zipped attributes (true = revealed): blinding,
    commitments, and the draws for attributes and randomness. *)
Fixpoint cac_loop (ek : G1) (ys : list G2) (attrs : list (F * bool)) (g : rng) (acc : G2) : G2 * list ctext * list F * list F :=
  match ys, attrs with
  | y :: ys', (_, b) :: attrs' =>
      let acc' := (acc + g 0%nat *: y)%M in
      if b then
        let '(bl, cs, ra, rr) := cac_loop ek ys' attrs' (skipr 2 g) acc' in
        (bl, encrypt ek (g 0%nat) (g 1%nat) :: cs, g 0%nat :: ra, g 1%nat :: rr)
      else
        let '(bl, cs, ra, rr) := cac_loop ek ys' attrs' (skipr 1 g) acc' in
        (bl, cs, g 0%nat :: ra, rr)
  | _, _ => (acc, [], [], [])
  end.
(** confidential_anon_creds.rs 218-286 [confidential_prove_pok]. *)
Definition confidential_prove_pok (chal : oracle) (t : transcript) (g : rng) (usk : F) (p : issuer_pk) (rd : randomizer)
    (attrs : list (F * bool)) (cm : sig) (ek : G1) (cts : list ctext) (ct_rands : list F) (m : list N) : cac_pok :=
  let t1 := cac_init t p ek cm cts ++ [Bytes m] in
  let r_t := g 0%nat in let r_sk := g 1%nat in
  let '(b, cs, ra, rr) := cac_loop ek (yy2 p) attrs (skipr 2 g) (r_t *: gen2 p + r_sk *: zz2 p)%M in
  let c := chal (t1 ++ ct_elems Com1 cs ++ [Com2 b]) in
  mkCac (mkPok b (c * rd_t rd + r_t) (c * usk + r_sk) (map (fun x => c * fst (fst x) + snd x) (combine attrs ra)))
        cs (map (fun x => c * fst x + snd x) (combine ct_rands rr)).
(** confidential_anon_creds.rs 134-185 [confidential_open_comm]. *)
Definition confidential_open_comm (chal : oracle) (g : rng) (usk : F) (cr : credential) (cm : sig) (rd : randomizer)
    (map_ : list bool) (ek : G1) (m : list N) : res (list ctext * cac_pok) :=
  if negb (Nat.eqb (length (c_attrs cr)) (length map_)) then Err else
  let '(cts, rands, g') := enc_loop ek (c_attrs cr) map_ g in
  Ok (cts, confidential_prove_pok chal [Tag 3] g' usk (c_ipk cr) rd (combine (c_attrs cr) map_) cm ek cts rands m).
(** confidential_anon_creds.rs 332-350 [verify_ciphertext]: the loop over the four zipped vectors. *)
Definition ct_check (c : F) (ek : G1) (x : ctext * ctext * F * F) : bool :=
  let '(ct, ctc, a, r) := x in
  let en := encrypt ek a r in
  meqb (fst en) (c *: fst ct + fst ctc)%M && meqb (snd en) (c *: snd ct + snd ctc)%M.
Definition verify_ciphertext (c : F) (cts ctcs : list ctext) (attrs rands : list F) (ek : G1) : res unit :=
  if forallb (ct_check c ek) (combine (combine (combine cts ctcs) attrs) rands) then Ok tt else Err.
(** confidential_anon_creds.rs 289-330 [confidential_verify_pok]. *)
Definition confidential_verify_pok (chal : oracle) (t : transcript) (p : issuer_pk) (ek : G1) (cm : sig) (cts : list ctext)
    (pf : cac_pok) (map_ : list bool) (m : list N) : res unit :=
  let t1 := cac_init t p ek cm cts ++ [Bytes m] in
  let c := chal (t1 ++ ct_elems Com1 (cm_ct pf) ++ [Com2 (blinding (cac pf))]) in
  let attr_resps := map fst (filter (fun ab => snd ab) (combine (resp_attrs (cac pf)) map_)) in
  bind (verify_ciphertext c cts (cm_ct pf) attr_resps (resp_rands pf) ek) (fun _ =>
  verify_pok p cm (cac pf) (repeat (Hidden None) (num_attrs p)) c).
(** confidential_anon_creds.rs 189-216 [confidential_verify_open]; [ac_confidential_verify] of the api only
    forwards to it. *)
Definition revealed_count (map_ : list bool) : nat := fold_left (fun s (b : bool) => if b then S s else s) map_ 0%nat.
Definition confidential_verify_open (chal : oracle) (p : issuer_pk) (ek : G1) (map_ : list bool) (cm : sig) (cts : list ctext)
    (pf : cac_pok) (m : list N) : res unit :=
  let n := length cts in
  if negb (Nat.eqb (length map_) (num_attrs p)) then Err else
  if Nat.ltb (num_attrs p) n || negb (Nat.eqb n (length (cm_ct pf))) || negb (Nat.eqb n (length (resp_rands pf)))
     || negb (Nat.eqb n (revealed_count map_)) then Err else
  confidential_verify_pok chal [Tag 3] p ek cm cts pf map_ m.
End Ac.
Arguments issuer_pk {F} G1 G2. Arguments issuer_sk {F} G1. Arguments sig {F} G1. Arguments credential {F} G1 G2.
Arguments pok {F} G2. Arguments msg {F} G1 G2. Arguments cac_pok {F} G1 G2.


(** The parameters of the instance in use meet the conditions of the theory. *)
From Coq Require Import List ZArith NArith Bool Lia.
From Verif Require Import Base Field PField Power Primality Zp RescueModel RescueSpec.
Import ListNotations.

(** Integer matrices standing for matrices over the field. *)
Definition zdot (a b : list Z) : Z := fold_right Z.add 0%Z (map (fun p => (fst p * snd p)%Z) (combine a b)).
Definition zcol (M : list (list Z)) (j : nat) : list Z := map (fun r => nth j r 0%Z) M.
Definition zmat_mul (p : Z) (A B : list (list Z)) : list (list Z) :=
  map (fun r => map (fun j => (zdot r (zcol B j) mod p)%Z) (seq 0 4)) A.
Definition zunit : list (list Z) := [[1;0;0;0]; [0;1;0;0]; [0;0;1;0]; [0;0;0;1]]%Z.

Section Lift.
Context (F : PField).
Notation lift := (map (map (fofZ (F := F)))).

Lemma dot_fofZ a : forall b, dot F (map fofZ a) (map fofZ b) = fofZ (zdot a b).
Proof.
  unfold dot, zdot. induction a as [|x a IH]; intros [|y b]; cbn [map combine fold_right fsum fst snd]; try reflexivity.
  unfold fsum in *. cbn [fold_right map]. rewrite fofZ_add, fofZ_mul. f_equal. apply IH.
Qed.
Lemma column_fofZ M j : column F (lift M) j = map fofZ (zcol M j).
Proof.
  unfold column, zcol. rewrite !map_map. apply map_ext. intros r.
  change (f0 : F) with (fofZ (F := F) 0%Z). apply map_nth.
Qed.
Lemma mat_mul_fofZ A B : mat_mul F (lift A) (lift B) = lift (zmat_mul (pchar F) A B).
Proof.
  unfold mat_mul, zmat_mul. rewrite !map_map. apply map_ext. intros r. rewrite map_map. apply map_ext. intros j.
  rewrite column_fofZ, dot_fofZ. symmetry. apply fofZ_mod.
Qed.
Lemma unit_fofZ : lift zunit = unit4 F.
Proof. reflexivity. Qed.
Lemma mat_inverse_fofZ A B : zmat_mul (pchar F) A B = zunit -> zmat_mul (pchar F) B A = zunit ->
  mat_inverse F (lift A) (lift B).
Proof. intros H1 H2. split; rewrite mat_mul_fofZ; [rewrite H1|rewrite H2]; apply unit_fofZ. Qed.
Lemma mat4_fofZ M : length M = 4%nat -> Forall (fun r => length r = 4%nat) M -> mat4 F (lift M).
Proof.
  intros H1 H2. split; [now rewrite map_length|]. apply Forall_map. eapply Forall_impl; [|exact H2].
  intros r Hr. unfold vec4. now rewrite map_length.
Qed.
End Lift.

(** The inverse of the MDS matrix. *)
Definition bls_MDS_inv : list (list Z) :=
  [[22922488726920441052011226392697914029896572921284742429058959505195246281294; 45640135682529245941181621277243747849303558023336925351504138250368534377419; 50842506308828337280831299464770681152995028312566955579526300797599586142188; 15287427164759822297215084696264129981833980320853538723791154139923784601900];
   [18352085077552902901977801885207164617606855088800737704769694051352548355411; 45370605166208388313976191525801569860612025628067280567797022934705986617639; 29153379197118162623143275960578435818269573694243503656222809145245992904499; 13293821867151347511925199161383970990325426560644271122872266895962295140549];
   [17071639282219080110133619970761666038758944307992836525425346570002453073160; 1310151965110528888418821566508024659359641538186065843452738792230645138124; 37066715129622512065946514082931788020697976920710428554589734830106237559464; 39027509028635388905412212578086546409891909236021577794424851669458489757005];
   [46525537263559956894772832767705186989118732682976958985953317273326914659162; 12550857536404217815318846646818589306105879811465003882453417422571996235845; 40245024889809559468422132016276992521109078574062025677472131326863926947389; 37262992289705822244342984580637284293329788883535888004119044694532592869573]]%Z.

Lemma bls_mds_inverse :
  zmat_mul bls_r bls_MDS bls_MDS_inv = zunit /\ zmat_mul bls_r bls_MDS_inv bls_MDS = zunit.
Proof. split; vm_compute; reflexivity. Qed.

Lemma bls_pchar : pchar BLS = bls_r. Proof. reflexivity. Qed.
Lemma bls_mds_mat_inverse :
  mat_inverse BLS (map (map (fofZ (F := BLS))) bls_MDS) (map (map (fofZ (F := BLS))) bls_MDS_inv).
Proof.
  destruct bls_mds_inverse as [H1 H2]. rewrite <- bls_pchar in H1, H2.
  exact (mat_inverse_fofZ BLS bls_MDS bls_MDS_inv H1 H2).
Qed.

Lemma bls_exp_inv : exp_inv BLS 5 bls_alpha_inv.
Proof. unfold exp_inv. change (pchar BLS) with bls_r. repeat split; vm_compute; discriminate || reflexivity. Qed.
Lemma gadget_exp_inv : exp_inv BLS 5 gadget_alpha_inv.
Proof. unfold exp_inv. change (pchar BLS) with bls_r. repeat split; vm_compute; discriminate || reflexivity. Qed.

Lemma bls_rescue_ok : rescue_ok BLS bls_rescue.
Proof.
  unfold rescue_ok, bls_rescue. cbn [state_size MDS Kmat IC Cadd alpha ainv].
  split; [reflexivity|]. split; [apply mat4_fofZ; [reflexivity|repeat constructor]|].
  split; [apply mat4_fofZ; [reflexivity|repeat constructor]|].
  split; [reflexivity|]. split; [reflexivity|]. split; [reflexivity|].
  split; [exact bls_exp_inv|].
  exists (map (map (fofZ (F := BLS))) bls_MDS_inv). split; [apply mat4_fofZ; [reflexivity|repeat constructor]|].
  exact bls_mds_mat_inverse.
Qed.

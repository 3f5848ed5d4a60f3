From Verif Require Import Bytes Item_model Item_spec.
Local Open Scope N_scope.
Local Opaque N.mul N.div N.modulo.

(** The layout of an item in its allocation. *)
Definition lkey (key : list byte) : list byte :=
  if N.of_nat (length key) <=? 255 then [] else le_enc 4 (N.of_nat (length key)).
Definition pkey (key : list byte) : N :=
  if N.of_nat (length key) <=? 255 then N.of_nat (length key) else 0.
Definition lay (pre : list byte) (ct ex : N) (key val rest : list byte) : list byte :=
  pre ++ le_enc 4 ct ++ le_enc 4 ex
  ++ le_enc 4 (packSize (N.of_nat (length val)) (pkey key)) ++ lkey key ++ key ++ val ++ rest.

Record wfl (isz : nat) (pre : list byte) (ct ex : N) (key val : list byte) : Prop := {
  w_isz : (12 <= isz)%nat;
  w_pre : length pre = (isz - 12)%nat;
  w_ct : ct < 2 ^ 32;
  w_ex : ex < 2 ^ 32;
  w_key0 : key <> [];
  w_key : N.of_nat (length key) < 2 ^ 24;
  w_val : N.of_nat (length val) < 2 ^ 24
}.

Lemma pow24 : 2 ^ 24 = 16777216. Proof. reflexivity. Qed.
Lemma pow32 : 2 ^ 32 = 4294967296. Proof. reflexivity. Qed.
Lemma pow4 : 256 ^ N.of_nat 4 = 4294967296. Proof. reflexivity. Qed.

Lemma pack_val v k : v < 2 ^ 24 -> packedVal (packSize v k) = v.
Proof.
  intros H. unfold packedVal, packSize. rewrite pow24 in H.
  rewrite (N.mod_small v) by assumption.
  rewrite N.add_mod, N.mul_comm, N.mod_mul, N.add_0_r, !N.mod_mod, N.mod_small by lia. lia.
Qed.
Lemma pack_key v k : v < 2 ^ 24 -> k < 256 -> packedKey (packSize v k) = k.
Proof.
  intros H Hk. unfold packedKey, packSize. rewrite pow24 in H.
  rewrite (N.mod_small v), (N.mod_small k) by assumption.
  rewrite N.mul_comm, N.div_add, (N.div_small v), N.add_0_l, N.mod_small by lia. lia.
Qed.
Lemma pack_bound v k : packSize v k < 2 ^ 32.
Proof.
  unfold packSize. rewrite pow32.
  pose proof (N.mod_lt v 16777216 ltac:(lia)). pose proof (N.mod_lt k 256 ltac:(lia)). lia.
Qed.
Lemma pkey_bound key : pkey key < 256.
Proof. unfold pkey. destruct (N.leb_spec (N.of_nat (length key)) 255); lia. Qed.

Lemma app_reassoc3 {A} (a b c : list A) : a ++ b ++ c = (a ++ b) ++ c.
Proof. apply app_assoc. Qed.

Section Reads.
Variables (isz : nat) (pre : list byte) (ct ex : N) (key val rest : list byte).
Hypothesis WF : wfl isz pre ct ex key val.
Let m := lay pre ct ex key val rest.

Lemma len_lkey : length (lkey key) = if N.of_nat (length key) <=? 255 then 0%nat else 4%nat.
Proof. unfold lkey. destruct (_ <=? _); [reflexivity|apply le_enc_length]. Qed.

Lemma rd_ct : rd 4 m (offCreation isz) = Some ct.
Proof.
  destruct WF. unfold m, lay. apply rd_app_mid; [unfold offCreation; lia|].
  rewrite pow4. rewrite pow32 in *. lia.
Qed.
Lemma rd_ex : rd 4 m (offExpiry isz) = Some ex.
Proof.
  destruct WF. unfold m, lay. rewrite (app_assoc pre).
  apply rd_app_mid; [rewrite app_length, le_enc_length; unfold offExpiry; lia|].
  rewrite pow4. rewrite pow32 in *. lia.
Qed.
Lemma rd_pk : rd 4 m (offAlloc isz) = Some (packSize (N.of_nat (length val)) (pkey key)).
Proof.
  destruct WF. unfold m, lay. rewrite (app_assoc pre), (app_assoc (pre ++ _)).
  apply rd_app_mid; [rewrite !app_length, !le_enc_length; unfold offAlloc; lia|].
  rewrite pow4, <- pow32. apply pack_bound.
Qed.
Lemma small_spec : isSmallKey m (offAlloc isz) = Some (N.of_nat (length key) <=? 255).
Proof.
  destruct WF. unfold isSmallKey. rewrite rd_pk.
  rewrite pack_key by (assumption || apply pkey_bound). unfold pkey.
  destruct (N.leb_spec (N.of_nat (length key)) 255).
  - destruct (N.eqb_spec (N.of_nat (length key)) 0); [|reflexivity].
    destruct key; [congruence|cbn [length] in *; lia].
  - reflexivity.
Qed.
Lemma dataOff_spec : getDataOff m (offAlloc isz) = Some (isz + length (lkey key))%nat.
Proof.
  destruct WF. unfold getDataOff. rewrite small_spec, len_lkey.
  unfold offAlloc. destruct (_ <=? _); f_equal; lia.
Qed.
Lemma keySize_spec : getKeySize m (offAlloc isz) = Some (N.of_nat (length key)).
Proof.
  destruct WF. unfold getKeySize. rewrite rd_pk, small_spec.
  rewrite pack_key by (assumption || apply pkey_bound). unfold pkey.
  destruct (N.leb_spec (N.of_nat (length key)) 255); [reflexivity|].
  unfold m, lay, lkey. destruct (N.leb_spec (N.of_nat (length key)) 255); [lia|].
  rewrite (app_assoc pre), (app_assoc (pre ++ _)), (app_assoc ((pre ++ _) ++ _)).
  apply rd_app_mid; [rewrite !app_length, !le_enc_length; unfold offAlloc; lia|].
  rewrite pow4. rewrite pow24 in *. lia.
Qed.
Lemma key_spec : itemKey isz m = Some key.
Proof.
  destruct WF. unfold itemKey, getKey. rewrite dataOff_spec, keySize_spec, Nat2N.id.
  unfold m, lay.
  rewrite (app_assoc pre), (app_assoc (pre ++ _)), (app_assoc ((pre ++ _) ++ _)),
    (app_assoc (((pre ++ _) ++ _) ++ _)).
  apply rd_bytes_app_mid; [|reflexivity]. rewrite !app_length, !le_enc_length. lia.
Qed.
Lemma memOff_spec : itemMemoryOff isz m = Some (isz + length (lkey key) + length key)%nat.
Proof. unfold itemMemoryOff, getMemoryOff. now rewrite dataOff_spec, keySize_spec, Nat2N.id. Qed.
Lemma size_spec : itemSize isz m = Some (N.of_nat (length val)).
Proof. destruct WF. unfold itemSize, getValSize. rewrite rd_pk. now rewrite pack_val. Qed.

Definition front := pre ++ le_enc 4 ct ++ le_enc 4 ex
  ++ le_enc 4 (packSize (N.of_nat (length val)) (pkey key)) ++ lkey key ++ key.
Lemma m_front : m = front ++ val ++ rest.
Proof. unfold m, lay, front. now rewrite <- !app_assoc. Qed.
Lemma front_len : length front = (isz + length (lkey key) + length key)%nat.
Proof. destruct WF. unfold front. rewrite !app_length, !le_enc_length. lia. Qed.

Lemma value_spec : itemValue isz m = Some val.
Proof.
  unfold itemValue. rewrite memOff_spec, size_spec, Nat2N.id, m_front.
  apply rd_bytes_app_mid; [|reflexivity]. now rewrite front_len.
Qed.
Lemma shows_lay : shows isz m {| u_key := key; u_value := val; u_creation := ct; u_expiry := ex |}.
Proof.
  constructor; cbn [u_key u_value u_creation u_expiry].
  - apply key_spec. - apply size_spec. - apply value_spec. - apply rd_ct. - apply rd_ex.
Qed.

(** Overwriting the value. *)
Lemma write_value_off pos data :
  (pos + length data <= length val)%nat ->
  wr m (isz + length (lkey key) + length key + pos)%nat data =
    Some (lay pre ct ex key (splice val pos data) rest).
Proof.
  intros H. rewrite m_front.
  assert (E : val = firstn pos val ++ slice val pos (length data) ++ skipn (pos + length data) val).
  { unfold slice. rewrite <- (firstn_skipn pos val) at 1. f_equal.
    rewrite <- (firstn_skipn (length data) (skipn pos val)) at 1. f_equal.
    rewrite Nat.add_comm. now rewrite skipn_add. }
  rewrite E at 1. rewrite <- !app_assoc, (app_assoc front).
  rewrite wr_app_mid.
  - f_equal. unfold lay, front, splice. rewrite <- !app_assoc.
    assert (L : length (firstn pos val ++ data ++ skipn (pos + length data) val) = length val).
    { apply (splice_length val data pos H). }
    rewrite L. reflexivity.
  - rewrite app_length, front_len, firstn_length. lia.
  - symmetry. apply slice_length. lia.
Qed.
Lemma writeValue_spec pos data :
  (pos + length data <= length val)%nat ->
  itemWriteValue isz m pos data = Some (lay pre ct ex key (splice val pos data) rest).
Proof. intros H. unfold itemWriteValue. rewrite memOff_spec. now apply write_value_off. Qed.

Lemma updExpiry_spec t :
  wr m (offExpiry isz) (le_enc 4 t) = Some (lay pre ct t key val rest).
Proof.
  destruct WF. unfold m, lay. rewrite (app_assoc pre).
  rewrite wr_app_mid; [now rewrite <- app_assoc| |].
  - rewrite app_length, le_enc_length. unfold offExpiry. lia.
  - now rewrite !le_enc_length.
Qed.
Lemma changeKey_spec k :
  length k = length key ->
  kallocChangeKey m (offAlloc isz) k = Some (Ok (lay pre ct ex k val rest)).
Proof.
  intros L. unfold kallocChangeKey. rewrite keySize_spec, L, N.eqb_refl, dataOff_spec. cbn [negb].
  unfold m, lay.
  rewrite (app_assoc pre), (app_assoc (pre ++ _)), (app_assoc ((pre ++ _) ++ _)),
    (app_assoc (((pre ++ _) ++ _) ++ _)).
  rewrite wr_app_mid; [| |assumption].
  - rewrite <- !app_assoc. unfold pkey, lkey. now rewrite L.
  - destruct WF. rewrite !app_length, !le_enc_length. lia.
Qed.
End Reads.

(** ** The constructors *)
Lemma split_at {A} (l : list A) n : (n <= length l)%nat ->
  exists a b, l = a ++ b /\ length a = n.
Proof.
  intros H. exists (firstn n l), (skipn n l). split; [symmetry; apply firstn_skipn|].
  rewrite firstn_length. lia.
Qed.

Lemma itemCtor_spec isz g key size ct ex :
  (12 <= isz)%nat -> ct < 2 ^ 32 -> ex < 2 ^ 32 -> key <> [] ->
  N.of_nat (length key) < 2 ^ 24 -> size < 2 ^ 24 ->
  bytesNeeded isz (length key) size <= N.of_nat (length g) ->
  exists pre val rest,
    itemCtor isz g key size ct ex = Some (Ok (lay pre ct ex key val rest)) /\
    wfl isz pre ct ex key val /\ N.of_nat (length val) = size /\
    pre = firstn (isz - 12) g /\
    rest = skipn (N.to_nat (bytesNeeded isz (length key) size)) g /\
    length (lay pre ct ex key val rest) = length g.
Proof.
  intros Hi Hc He Hk0 Hk Hs Hb. unfold bytesNeeded in Hb.
  assert (Hx : exists x, x = length (lkey key)) by eauto. destruct Hx as [x Hx].
  assert (Hx2 : N.of_nat x = if 255 <? N.of_nat (length key) then 4 else 0).
  { rewrite Hx, len_lkey. rewrite N.leb_antisym. now destruct (255 <? _). }
  assert (Hbn : N.to_nat (bytesNeeded isz (length key) size) =
    (isz + x + length key + N.to_nat size)%nat).
  { unfold bytesNeeded. rewrite <- Hx2. lia. }
  rewrite <- Hx2 in Hb. rewrite Hbn.
  destruct (split_at g (isz - 12)) as (pre & g1 & -> & L1); [lia|].
  rewrite app_length in Hb.
  destruct (split_at g1 4) as (b1 & g2 & -> & L2); [lia|].
  rewrite app_length in Hb.
  destruct (split_at g2 4) as (b2 & g3 & -> & L3); [lia|].
  rewrite app_length in Hb.
  destruct (split_at g3 4) as (b3 & g4 & -> & L4); [lia|].
  rewrite app_length in Hb.
  destruct (split_at g4 x) as (b4 & g5 & -> & L5); [lia|].
  rewrite app_length in Hb.
  destruct (split_at g5 (length key)) as (b5 & g6 & -> & L6); [lia|].
  rewrite app_length in Hb.
  destruct (split_at g6 (N.to_nat size)) as (val & rest & -> & L7); [lia|].
  assert (WF : wfl isz pre ct ex key val).
  { constructor; try assumption. rewrite L7, N2Nat.id. assumption. }
  exists pre, val, rest.
  assert (Es : size = N.of_nat (length val)) by lia.
  split; [|split; [assumption|split; [lia|split; [|split]]]].
  - unfold itemCtor.
    rewrite wr_app_mid; [| unfold offCreation; lia | now rewrite le_enc_length].
    rewrite (app_assoc pre).
    rewrite wr_app_mid; [| rewrite app_length, le_enc_length; unfold offExpiry; lia
                         | now rewrite le_enc_length].
    unfold kallocCtor.
    destruct (N.ltb_spec kMaxValSize size) as [C|_]; [unfold kMaxValSize in C; rewrite pow24 in *; lia|].
    assert (isKeyValid key = true) as ->.
    { unfold isKeyValid, kKeyMaxLen, kMaxValSize. rewrite pow24 in *.
      apply andb_true_iff; split; [apply N.leb_le; lia|].
      apply negb_true_iff, N.eqb_neq. destruct key; [congruence|cbn [length]; lia]. }
    cbn [negb]. unfold kKeyMaxLenSmall.
    rewrite (app_assoc (pre ++ _)).
    assert (Lo : offAlloc isz = length ((pre ++ le_enc 4 ct) ++ le_enc 4 ex)).
    { rewrite !app_length, !le_enc_length. unfold offAlloc. lia. }
    assert (W1 : (if N.of_nat (length key) <=? 255
      then wr (((pre ++ le_enc 4 ct) ++ le_enc 4 ex) ++ b3 ++ b4 ++ b5 ++ val ++ rest)
             (offAlloc isz) (le_enc 4 (packSize size (N.of_nat (length key))))
      else let* m0 := wr (((pre ++ le_enc 4 ct) ++ le_enc 4 ex) ++ b3 ++ b4 ++ b5 ++ val ++ rest)
             (offAlloc isz) (le_enc 4 (packSize size 0)) in
           wr m0 (offAlloc isz + 4)%nat (le_enc 4 (N.of_nat (length key))))
      = Some (((pre ++ le_enc 4 ct) ++ le_enc 4 ex) ++
              le_enc 4 (packSize (N.of_nat (length val)) (pkey key)) ++ lkey key ++ b5 ++ val ++ rest)).
    { unfold pkey, lkey in *. destruct (N.leb_spec (N.of_nat (length key)) 255).
      - rewrite wr_app_mid; [|assumption|now rewrite le_enc_length].
        destruct b4; [|cbn [length] in *; subst x; cbn [length] in *; lia].
        now rewrite Es.
      - rewrite wr_app_mid; [|assumption|now rewrite le_enc_length].
        rewrite (app_assoc ((pre ++ _) ++ _)).
        rewrite wr_app_mid.
        + rewrite <- !app_assoc. now rewrite Es.
        + rewrite app_length, le_enc_length. lia.
        + rewrite le_enc_length in *. lia. }
    rewrite W1. clear W1.
    assert (D : getDataOff (((pre ++ le_enc 4 ct) ++ le_enc 4 ex) ++
      le_enc 4 (packSize (N.of_nat (length val)) (pkey key)) ++ lkey key ++ b5 ++ val ++ rest) (offAlloc isz)
      = Some (isz + length (lkey key))%nat).
    { unfold getDataOff, isSmallKey.
      rewrite rd_app_mid; [|assumption|rewrite pow4, <- pow32; apply pack_bound].
      rewrite pack_key; [|now destruct WF|apply pkey_bound].
      rewrite len_lkey. unfold pkey, offAlloc.
      destruct (N.leb_spec (N.of_nat (length key)) 255).
      - destruct (N.eqb_spec (N.of_nat (length key)) 0); [destruct key; [congruence|cbn [length] in *; lia]|].
        cbn [negb]. f_equal. lia.
      - rewrite N.eqb_refl. cbn [negb]. f_equal. lia. }
    rewrite D.
    rewrite (app_assoc ((pre ++ _) ++ _)), (app_assoc (((pre ++ _) ++ _) ++ _)).
    rewrite wr_app_mid; [| |lia].
    + f_equal. f_equal. unfold lay. now rewrite <- !app_assoc.
    + rewrite !app_length, !le_enc_length. lia.
  - rewrite firstn_app, firstn_all2 by lia. replace (isz - 12 - length pre)%nat with 0%nat by lia.
    cbn [firstn]. now rewrite app_nil_r.
  - rewrite !app_assoc. rewrite skipn_app.
    rewrite skipn_all2 by (rewrite !app_length; lia).
    rewrite !app_length. replace (_ - _)%nat with 0%nat by lia. reflexivity.
  - unfold lay. rewrite !app_length, !le_enc_length. lia.
Qed.

(** ** Histories of a regular item *)
Lemma wfl_val isz pre ct ex key val val' :
  wfl isz pre ct ex key val -> length val' = length val -> wfl isz pre ct ex key val'.
Proof. intros [? ? ? ? ? ? ?] L. constructor; try assumption. now rewrite L. Qed.

Lemma irun_spec isz pre key rest : forall os ct ex val,
  wfl isz pre ct ex key val ->
  Forall (uop_legal (length val)) os ->
  exists ex' val',
    irun isz (lay pre ct ex key val rest) os = Some (lay pre ct ex' key val' rest) /\
    wfl isz pre ct ex' key val' /\ length val' = length val /\
    urun {| u_key := key; u_value := val; u_creation := ct; u_expiry := ex |} os =
      {| u_key := key; u_value := val'; u_creation := ct; u_expiry := ex' |}.
Proof.
  induction os as [|o os IH]; intros ct ex val WF F.
  - exists ex, val. repeat split; try apply WF; reflexivity.
  - inversion F as [|? ? Ho F']; subst. cbn [irun].
    destruct o as [pos data|a t]; cbn [istep].
    + cbn [uop_legal] in Ho. rewrite writeValue_spec by assumption.
      assert (L : length (splice val pos data) = length val) by now apply splice_length.
      destruct (IH ct ex (splice val pos data)) as (ex' & val' & R & W & L' & U).
      * eapply wfl_val; eassumption.
      * now rewrite L.
      * exists ex', val'. split; [exact R|]. split; [exact W|]. split; [congruence|].
        unfold urun in *. cbn [fold_left]. exact U.
    + cbn [uop_legal] in Ho. unfold itemUpdateExpiry. destruct a.
      * rewrite updExpiry_spec by assumption. cbn [snd].
        destruct (IH ct t val) as (ex' & val' & R & W & L' & U).
        -- destruct WF; constructor; assumption.
        -- assumption.
        -- exists ex', val'. split; [exact R|]. split; [exact W|]. split; [assumption|].
           unfold urun in *. cbn [fold_left]. exact U.
      * cbn [snd]. destruct (IH ct ex val WF F') as (ex' & val' & R & W & L' & U).
        exists ex', val'. split; [exact R|]. split; [exact W|]. split; [assumption|].
        unfold urun in *. cbn [fold_left]. exact U.
Qed.

(** ** Admission *)
Definition classesOk (classes : list N) := Forall (fun c => c < 2 ^ 32) classes.

Lemma required_spec isz k size :
  getRequiredSize isz (N.of_nat k) size =
    if two32 - 1 <? bytesNeeded isz k size then 0 else bytesNeeded isz k size.
Proof.
  unfold getRequiredSize, bytesNeeded, extraBytesForLargeKeys, kKeyMaxLenSmall.
  rewrite N.leb_antisym.
  destruct (255 <? N.of_nat k); cbn [negb];
    match goal with |- (if ?a <? ?b then 0 else ?c) = (if ?a <? ?d then 0 else ?e) =>
      replace d with b by lia; now replace e with b by lia end.
Qed.

Lemma find_first classes size c :
  find (fun c => size <=? c) classes = Some c -> In c classes /\ size <= c.
Proof. intros H. apply find_some in H as [? H2]. split; [assumption|]. now apply N.leb_le. Qed.

Lemma allocClass_iff isz classes k size : classesOk classes -> (0 < isz)%nat ->
  (exists c, allocClass classes (getRequiredSize isz (N.of_nat k) size) = Some c) <->
  (exists c, In c classes /\ bytesNeeded isz k size <= c).
Proof.
  intros HC Hi. rewrite required_spec. unfold allocClass.
  assert (P : 0 < bytesNeeded isz k size) by (unfold bytesNeeded; lia).
  assert (HC' : forall c, In c classes -> c < 2 ^ 32)
    by (intros c; apply (proj1 (Forall_forall _ _) HC)).
  unfold two32. rewrite pow32 in HC'.
  destruct (N.ltb_spec (4294967296 - 1) (bytesNeeded isz k size)).
  - split; [intros [c H0]; discriminate|].
    intros (c & Hin & Hle). specialize (HC' _ Hin). lia.
  - destruct (N.eqb_spec (bytesNeeded isz k size) 0); [lia|]. split.
    + intros [c H0]. exists c. now apply find_first.
    + intros (c & Hin & Hle).
      destruct (find (fun c0 => bytesNeeded isz k size <=? c0) classes) eqn:E; [eauto|].
      exfalso. apply (find_none _ _ E) in Hin. apply N.leb_gt in Hin. lia.
Qed.

Lemma allocClass_fit isz classes k size c : (0 < isz)%nat ->
  allocClass classes (getRequiredSize isz (N.of_nat k) size) = Some c ->
  In c classes /\ bytesNeeded isz k size <= c.
Proof.
  intros Hi. rewrite required_spec. unfold allocClass.
  destruct (_ <? bytesNeeded isz k size); [discriminate|].
  destruct (_ =? 0); [discriminate|]. apply find_first.
Qed.

Lemma itemCtor_throws isz g key size ct ex :
  (12 <= isz <= length g)%nat ->
  key = [] \/ 2 ^ 24 <= N.of_nat (length key) \/ 2 ^ 24 <= size ->
  itemCtor isz g key size ct ex = Some Threw.
Proof.
  intros Hi HB. unfold itemCtor, wr.
  rewrite le_enc_length. unfold offCreation, offExpiry.
  destruct (Nat.leb_spec (isz - 12 + 4) (length g)); [|lia].
  rewrite splice_length by (rewrite le_enc_length; lia).
  rewrite le_enc_length.
  destruct (Nat.leb_spec (isz - 8 + 4) (length g)); [|lia].
  unfold kallocCtor, kMaxValSize, isKeyValid, kKeyMaxLen, kMaxValSize.
  rewrite pow24 in HB.
  destruct (N.ltb_spec 16777215 size); [reflexivity|].
  destruct HB as [->|[HB|HB]]; [reflexivity| |lia].
  destruct (N.leb_spec (N.of_nat (length key)) 16777215); [lia|reflexivity].
Qed.

Lemma allocate_cases isz classes allowLarge garbage key size ct ex :
  (12 <= isz)%nat -> classesOk classes ->
  (forall c, In c classes -> N.of_nat (length (garbage c)) = c) ->
  ct < 2 ^ 32 -> ex < 2 ^ 32 ->
  (acceptable isz classes allowLarge key size /\
   exists c pre val rest,
     In c classes /\ bytesNeeded isz (length key) size <= c /\
     allocateItem isz classes allowLarge garbage key size ct ex =
       Some (Ok (lay pre ct ex key val rest)) /\
     wfl isz pre ct ex key val /\ N.of_nat (length val) = size /\
     pre = firstn (isz - 12) (garbage c) /\
     rest = skipn (N.to_nat (bytesNeeded isz (length key) size)) (garbage c) /\
     N.of_nat (length (lay pre ct ex key val rest)) = c)
  \/ (~ acceptable isz classes allowLarge key size /\
      allocateItem isz classes allowLarge garbage key size ct ex = Some Threw).
Proof.
  intros Hi HC HG Hct Hex. unfold allocateItem.
  destruct (allocClass classes (getRequiredSize isz (N.of_nat (length key)) size)) as [c|] eqn:EC.
  2:{ right. split; [|reflexivity]. intros (_ & _ & _ & _ & A).
      apply (allocClass_iff isz classes (length key) size HC ltac:(lia)) in A as [c A]. congruence. }
  destruct (allocClass_fit isz _ _ _ _ ltac:(lia) EC) as [Hin Hfit].
  pose proof (HG _ Hin) as Lg.
  unfold kKeyMaxLenSmall.
  destruct (negb allowLarge && (255 <? N.of_nat (length key))) eqn:EL.
  { right. split; [|reflexivity]. intros (_ & _ & A & _).
    apply andb_true_iff in EL as [E1 E2]. apply negb_true_iff in E1. apply N.ltb_lt in E2.
    specialize (A E1). lia. }
  assert (Hal : allowLarge = false -> N.of_nat (length key) <= 255).
  { intros ->. cbn [negb andb] in EL. apply N.ltb_ge in EL. assumption. }
  destruct (list_eq_dec N.eq_dec key []) as [E0|N0];
    [|destruct (N.lt_ge_cases (N.of_nat (length key)) (2 ^ 24)) as [Hk|Hk];
      [destruct (N.lt_ge_cases size (2 ^ 24)) as [Hs|Hs]|]].
  - right. split; [now intros (A & _)|]. apply itemCtor_throws; [|now left].
    unfold bytesNeeded in Hfit. lia.
  - left. split.
    + repeat split; try assumption. exists c. split; assumption.
    + destruct (itemCtor_spec isz (garbage c) key size ct ex) as (pre & val & rest & A & B & D & E & F & G);
        try assumption; [now rewrite Lg|].
      exists c, pre, val, rest. repeat split; try assumption; try apply B.
      rewrite G. assumption.
  - right. split; [intros (_ & _ & _ & A & _); lia|]. apply itemCtor_throws; [|now right; right].
    unfold bytesNeeded in Hfit. lia.
  - right. split; [intros (_ & A & _); lia|]. apply itemCtor_throws; [|now right; left].
    unfold bytesNeeded in Hfit. lia.
Qed.

(** ** Chained items *)
Lemma chained_ctor_spec isz pw g parent size ct :
  (12 <= isz)%nat -> (0 < pw < 256)%nat -> ct < 2 ^ 32 -> size < 2 ^ 24 - N.of_nat pw ->
  parent < 256 ^ N.of_nat pw ->
  N.of_nat isz + 2 * N.of_nat pw + size <= N.of_nat (length g) ->
  exists pre val rest,
    chainedCtor isz pw g parent size ct =
      Some (Ok (lay pre ct 0 (le_enc pw parent) (le_enc pw 0 ++ val) rest)) /\
    wfl isz pre ct 0 (le_enc pw parent) (le_enc pw 0 ++ val) /\ N.of_nat (length val) = size.
Proof.
  intros Hi Hp Hct Hs Hpa Hl.
  assert (W : wrap32 (size + N.of_nat pw) = size + N.of_nat pw).
  { unfold wrap32, two32. apply N.mod_small. rewrite pow24 in Hs. lia. }
  destruct (itemCtor_spec isz g (le_enc pw parent) (size + N.of_nat pw) ct 0)
    as (pre & val & rest & A & B & D & _ & _ & _); try assumption.
  - reflexivity.
  - intros E. apply (f_equal (@length _)) in E. rewrite le_enc_length in E. cbn in E. lia.
  - rewrite le_enc_length, pow24. lia.
  - lia.
  - unfold bytesNeeded. rewrite le_enc_length.
    destruct (N.ltb_spec 255 (N.of_nat pw)); lia.
  - unfold chainedCtor. rewrite W, A.
    pose proof (memOff_spec isz pre ct 0 (le_enc pw parent) val rest B) as M.
    unfold itemMemoryOff in M. rewrite M.
    assert (L : (pw <= length val)%nat) by lia.
    pose proof (write_value_off isz pre ct 0 (le_enc pw parent) val rest B 0 (le_enc pw 0)) as Wv.
    rewrite le_enc_length in Wv. rewrite Nat.add_0_r in Wv. rewrite le_enc_length. rewrite le_enc_length in *.
    rewrite Wv by lia.
    exists pre, (skipn pw val), rest. unfold splice. cbn [firstn app Nat.add].
    rewrite le_enc_length. split; [reflexivity|]. split.
    + eapply wfl_val; [exact B|]. rewrite app_length, le_enc_length, skipn_length. lia.
    + rewrite skipn_length. lia.
Qed.

Lemma splice_app_r {A} (h v d : list A) pos :
  splice (h ++ v) (length h + pos) d = h ++ splice v pos d.
Proof.
  unfold splice. rewrite firstn_app, firstn_all2 by lia.
  replace (length h + pos - length h)%nat with pos by lia.
  rewrite <- app_assoc. f_equal. f_equal. f_equal.
  rewrite skipn_app, (skipn_all2 h) by lia. cbn [app].
  replace (length h + pos + length d - length h)%nat with (pos + length d)%nat by lia.
  reflexivity.
Qed.
Lemma splice_app_hd {A} (h h' v : list A) :
  length h' = length h -> splice (h ++ v) 0 h' = h' ++ v.
Proof.
  intros L. unfold splice. cbn [firstn app Nat.add]. f_equal. rewrite L.
  rewrite skipn_app, skipn_all2, Nat.sub_diag by lia. reflexivity.
Qed.

Section Chained.
Variables (isz pw : nat) (pre : list byte) (ct : N) (rest : list byte).
Hypothesis Hpw : (0 < pw < 256)%nat.
Definition clay parent next val :=
  lay pre ct 0 (le_enc pw parent) (le_enc pw next ++ val) rest.
Definition cwf parent next val :=
  wfl isz pre ct 0 (le_enc pw parent) (le_enc pw next ++ val) /\
  parent < 256 ^ N.of_nat pw /\ next < 256 ^ N.of_nat pw.

Lemma cwf_val p n v p' n' v' : cwf p n v -> length v' = length v ->
  p' < 256 ^ N.of_nat pw -> n' < 256 ^ N.of_nat pw -> cwf p' n' v'.
Proof.
  intros [[? ? ? ? ? ? ?] [? ?]] L A B. split; [|now split].
  constructor; try assumption.
  - intros E. apply (f_equal (@length _)) in E. rewrite le_enc_length in E. cbn in E. lia.
  - now rewrite le_enc_length in *.
  - rewrite !app_length, !le_enc_length in *. now rewrite L.
Qed.

Lemma cmem p n v : cwf p n v ->
  getMemoryOff (clay p n v) (offAlloc isz) = Some (isz + pw)%nat.
Proof.
  intros [WF _]. pose proof (memOff_spec isz pre ct 0 _ _ rest WF) as M.
  unfold itemMemoryOff in M. unfold clay. rewrite M. rewrite len_lkey, le_enc_length.
  destruct (N.leb_spec (N.of_nat pw) 255); [|lia]. f_equal. lia.
Qed.
Lemma cdata p n v : cwf p n v ->
  getDataOff (clay p n v) (offAlloc isz) = Some isz.
Proof.
  intros [WF _]. unfold clay. rewrite (dataOff_spec isz pre ct 0 _ _ rest WF). rewrite len_lkey, le_enc_length.
  destruct (N.leb_spec (N.of_nat pw) 255); [|lia]. f_equal. lia.
Qed.
Lemma cwrite p n v pos d : cwf p n v ->
  (pos + length d <= pw + length v)%nat ->
  wr (clay p n v) (isz + pw + pos)%nat d =
  Some (lay pre ct 0 (le_enc pw p) (splice (le_enc pw n ++ v) pos d) rest).
Proof.
  intros [WF _] L.
  pose proof (write_value_off isz pre ct 0 (le_enc pw p) (le_enc pw n ++ v) rest WF pos d) as W.
  rewrite app_length, !le_enc_length in W. specialize (W L).
  rewrite len_lkey, le_enc_length in W.
  destruct (N.leb_spec (N.of_nat pw) 255); [|lia]. rewrite Nat.add_0_r in W. exact W.
Qed.

Lemma cstep_spec p n v o : cwf p n v -> chop_legal pw (length v) o ->
  exists p' n' v', cistep isz pw (clay p n v) o = Some (clay p' n' v') /\
    cwf p' n' v' /\ length v' = length v /\
    chstep {| c_parent := p; c_next := n; c_value := v |} o =
      {| c_parent := p'; c_next := n'; c_value := v' |}.
Proof.
  intros WF LG. pose proof WF as [W0 [Hp Hn]].
  destruct o as [pos d|q|q]; cbn [cistep chop_legal chstep c_parent c_next c_value] in *.
  - exists p, n, (splice v pos d).
    assert (L : length (splice v pos d) = length v) by now apply splice_length.
    split; [|split; [eapply cwf_val; eassumption|split; [assumption|reflexivity]]].
    unfold chainedWriteValue, chainedMemoryOff. rewrite cmem by assumption.
    replace (isz + pw + pw + pos)%nat with (isz + pw + (pw + pos))%nat by lia.
    rewrite cwrite by (assumption || lia).
    unfold clay. do 2 f_equal.
    pose proof (splice_app_r (le_enc pw n) v d pos) as Sp. now rewrite le_enc_length in Sp.
  - exists p, q, v.
    split; [|split; [eapply cwf_val; eauto|split; reflexivity]].
    unfold chainedSetNext. rewrite cmem by assumption.
    replace (isz + pw)%nat with (isz + pw + 0)%nat by lia.
    rewrite cwrite by (rewrite ?le_enc_length; assumption || lia).
    unfold clay. do 2 f_equal. apply splice_app_hd. now rewrite !le_enc_length.
  - exists q, n, v.
    split; [|split; [eapply cwf_val; eauto|split; reflexivity]].
    unfold chainedChangeKey, clay.
    rewrite changeKey_spec; [reflexivity|assumption|now rewrite !le_enc_length].
Qed.

Lemma cirun_spec : forall os p n v, cwf p n v ->
  Forall (chop_legal pw (length v)) os ->
  exists p' n' v', cirun isz pw (clay p n v) os = Some (clay p' n' v') /\
    cwf p' n' v' /\ length v' = length v /\
    chrun {| c_parent := p; c_next := n; c_value := v |} os =
      {| c_parent := p'; c_next := n'; c_value := v' |}.
Proof.
  induction os as [|o os IH]; intros p n v WF F.
  - exists p, n, v. split; [reflexivity|]. split; [assumption|]. split; reflexivity.
  - inversion F as [|? ? Ho F']; subst. cbn [cirun].
    destruct (cstep_spec _ _ _ _ WF Ho) as (p1 & n1 & v1 & E1 & W1 & L1 & C1).
    rewrite E1. destruct (IH p1 n1 v1 W1) as (p2 & n2 & v2 & E2 & W2 & L2 & C2).
    + now rewrite L1.
    + exists p2, n2, v2. split; [exact E2|]. split; [assumption|]. split; [congruence|].
      unfold chrun in *. cbn [fold_left]. rewrite C1. exact C2.
Qed.

Lemma cshows_clay p n v : cwf p n v ->
  cshows isz pw (clay p n v) {| c_parent := p; c_next := n; c_value := v |}.
Proof.
  intros WF. pose proof WF as [W0 [Hp Hn]]. pose proof W0 as [? ? ? ? ? ? ?].
  assert (Sz : chainedSize isz pw (clay p n v) = Some (N.of_nat (length v))).
  { unfold chainedSize, clay. pose proof (size_spec isz pre ct 0 _ _ rest W0) as Sz.
    unfold itemSize in Sz. rewrite Sz. f_equal. rewrite app_length, le_enc_length in *.
    unfold wrap32, two32. rewrite pow24 in *.
    replace (N.of_nat (pw + length v) + 4294967296 - N.of_nat pw)
      with (N.of_nat (length v) + 1 * 4294967296) by lia.
    rewrite N.mod_add, N.mod_small by lia. reflexivity. }
  assert (FR : clay p n v = front pre ct 0 (le_enc pw p) (le_enc pw n ++ v) ++ le_enc pw n ++ v ++ rest).
  { unfold clay. rewrite m_front. now rewrite <- app_assoc. }
  assert (FL : length (front pre ct 0 (le_enc pw p) (le_enc pw n ++ v)) = (isz + pw)%nat).
  { erewrite front_len by eassumption. rewrite len_lkey, le_enc_length.
    destruct (N.leb_spec (N.of_nat pw) 255); lia. }
  constructor; cbn [c_parent c_next c_value].
  - unfold chainedParent. rewrite cdata by assumption.
    unfold clay, lay.
    rewrite (app_assoc pre), (app_assoc (pre ++ _)), (app_assoc ((pre ++ _) ++ _)),
      (app_assoc (((pre ++ _) ++ _) ++ _)).
    apply rd_app_mid; [|assumption]. rewrite !app_length, !le_enc_length.
    rewrite len_lkey, le_enc_length. destruct (N.leb_spec (N.of_nat pw) 255); lia.
  - unfold chainedNext. rewrite cmem by assumption. rewrite FR.
    apply rd_app_mid; [now rewrite FL|assumption].
  - exact Sz.
  - unfold chainedValue, chainedMemoryOff. rewrite cmem by assumption. rewrite Sz, Nat2N.id, FR.
    rewrite (app_assoc (front _ _ _ _ _)).
    apply rd_bytes_app_mid; [|reflexivity]. rewrite app_length, le_enc_length, FL. lia.
Qed.
End Chained.

Lemma chained_allocate isz pw classes garbage parent size ct :
  (12 <= isz)%nat -> (0 < pw < 256)%nat -> ct < 2 ^ 32 -> parent < 256 ^ N.of_nat pw ->
  size < 2 ^ 32 -> Forall (fun c => c <= 4194304) classes ->
  (forall c, In c classes -> N.of_nat (length (garbage c)) = c) ->
  (exists c pre val rest,
     In c classes /\ N.of_nat isz + 2 * N.of_nat pw + size <= c /\
     allocateChained isz pw classes garbage parent size ct =
       Some (Ok (clay pw pre ct rest parent 0 val)) /\
     cwf isz pw pre ct parent 0 val /\ N.of_nat (length val) = size)
  \/ ((forall c, In c classes -> c < N.of_nat isz + 2 * N.of_nat pw + size) /\
      allocateChained isz pw classes garbage parent size ct = Some Threw).
Proof.
  intros Hi Hp Hct Hpa Hs HC HG. unfold allocateChained, chainedRequiredSize, allocClass.
  assert (HC' : forall c, In c classes -> c <= 4194304)
    by (intros c; apply (proj1 (Forall_forall _ _) HC)).
  unfold two32.
  replace (size + N.of_nat pw + N.of_nat isz + N.of_nat pw) with (N.of_nat isz + 2 * N.of_nat pw + size) by lia.
  destruct (N.ltb_spec (4294967296 - 1) (N.of_nat isz + 2 * N.of_nat pw + size)) as [Hb|Hb].
  { right. split; [|reflexivity]. intros c Hc. apply HC' in Hc. lia. }
  destruct (N.eqb_spec (N.of_nat isz + 2 * N.of_nat pw + size) 0); [lia|].
  destruct (find _ classes) as [c|] eqn:EF.
  - left. apply find_first in EF as [Hin Hfit]. pose proof (HC' _ Hin) as Hc4.
    destruct (chained_ctor_spec isz pw (garbage c) parent size ct) as (pre & val & rest & A & B & D);
      try assumption.
    + rewrite pow24. lia.
    + rewrite HG by assumption. assumption.
    + exists c, pre, val, rest. split; [assumption|]. split; [assumption|]. split; [exact A|].
      split; [|assumption]. split; [exact B|]. split; [assumption|].
      apply N.neq_0_lt_0. apply N.pow_nonzero. discriminate.
  - right. split; [|reflexivity]. intros c Hc. apply (find_none _ _ EF) in Hc. apply N.leb_gt in Hc. lia.
Qed.

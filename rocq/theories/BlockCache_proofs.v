(** Bytes and arithmetic of one entry. *)
From Coq Require Import List NArith Bool Lia.
From Verif Require Import Bytes AddrCode_model AddrCode_spec AddrCode_proofs AddrCode_props BlockCache_model BlockCache_spec.
Import ListNotations.
Local Open Scope N_scope.
Ltac Zify.zify_post_hook ::= idtac.

Lemma rdl_length f o n : length (rdl f o n) = N.to_nat n.
Proof. unfold rdl. now rewrite map_length, seq_length. Qed.
Lemma rdl_ext f g o n : (forall x, o <= x -> x < o + n -> f x = g x) -> rdl f o n = rdl g o n.
Proof.
  intro H. unfold rdl. apply map_ext_in. intros a Ha. apply in_seq in Ha. apply H; lia.
Qed.
Lemma rdl_nth f o n i d : (i < N.to_nat n)%nat -> nth i (rdl f o n) d = f (o + N.of_nat i).
Proof.
  intro H. unfold rdl. rewrite nth_indep with (d' := f (o + N.of_nat 0)) by now rewrite map_length, seq_length.
  change (f (o + N.of_nat 0)) with ((fun i => f (o + N.of_nat i)) 0%nat). rewrite map_nth, seq_nth by auto. reflexivity.
Qed.
Lemma nth_ext' (l l' : list N) : length l = length l' -> (forall i, (i < length l)%nat -> nth i l 0 = nth i l' 0) -> l = l'.
Proof. intros. eapply nth_ext; eauto. Qed.
Lemma rdl_wrl_same f o l : rdl (wrl f o l) o (lenN l) = l.
Proof.
  unfold lenN. apply nth_ext'; rewrite rdl_length; [lia|]. intros i Hi. rewrite rdl_nth by auto.
  unfold wrl, lenN. replace (o <=? o + N.of_nat i) with true by (symmetry; apply N.leb_le; lia).
  replace (o + N.of_nat i <? o + N.of_nat (length l)) with true by (symmetry; apply N.ltb_lt; lia). cbn [andb].
  f_equal. lia.
Qed.
Lemma wrl_out f o l x : x < o \/ o + lenN l <= x -> wrl f o l x = f x.
Proof.
  intro H. unfold wrl. destruct (N.leb_spec o x), (N.ltb_spec x (o + lenN l)); cbn [andb]; auto; lia.
Qed.
Lemma nth_skipn' (l : list N) n i d : nth i (skipn n l) d = nth (n + i) l d.
Proof. revert l. induction n; intros [|x l]; cbn [skipn plus nth]; auto. destruct i; auto. Qed.
Lemma nth_firstn' (l : list N) n i d : (i < n)%nat -> nth i (firstn n l) d = nth i l d.
Proof. revert l i. induction n; intros [|x l] [|i] H; cbn [firstn nth]; auto; try lia. apply IHn. lia. Qed.
Lemma skipn_rdl f o n m : m <= n -> skipn (N.to_nat m) (rdl f o n) = rdl f (o + m) (n - m).
Proof.
  intro H. apply nth_ext'; [rewrite skipn_length, !rdl_length; lia|].
  intros i Hi. rewrite skipn_length, rdl_length in Hi.
  rewrite nth_skipn', !rdl_nth by lia. f_equal. lia.
Qed.
Lemma firstn_rdl f o n m : m <= n -> firstn (N.to_nat m) (rdl f o n) = rdl f o m.
Proof.
  intro H. apply nth_ext'; [rewrite firstn_length, !rdl_length; lia|].
  intros i Hi. rewrite firstn_length, rdl_length in Hi. rewrite nth_firstn' by lia.
  rewrite !rdl_nth by lia. reflexivity.
Qed.
Lemma slice_rdl f o n a m : a + m <= n -> slice (rdl f o n) (N.to_nat a) (N.to_nat m) = rdl f (o + a) m.
Proof. intro H. unfold slice. rewrite skipn_rdl by lia. apply firstn_rdl. lia. Qed.

(** ** The descriptor *)
Definition fits (c : cfg) (k v : list N) : Prop := 32 + lenN k + lenN v + algn c <= U32.

Lemma header_length a b h l : length (header a b h l) = 20%nat.
Proof. unfold header. now rewrite !app_length, !le_enc_length. Qed.
Lemma desc_length c k v la : length (descBytes c k v la) = 32%nat.
Proof. unfold descBytes. cbv zeta. now rewrite !app_length, !le_enc_length, header_length. Qed.
Lemma slice_at (a b d : list N) off len : off = length a -> len = length b -> slice (a ++ b ++ d) off len = b.
Proof. intros. now apply slice_app_mid. Qed.
Lemma desc_self c k v la : selfOk c (descBytes c k v la) = true.
Proof.
  unfold selfOk, descBytes. cbv zeta. set (h := header _ _ _ _).
  rewrite slice_at by (now rewrite ?le_enc_length, ?header_length).
  change h with ([] ++ h) at 2. rewrite <- app_assoc, slice_at by (unfold h; now rewrite ?header_length).
  rewrite le_dec_enc; [apply N.eqb_refl|]. unfold checksum. apply N.mod_upper_bound. discriminate.
Qed.
Lemma desc_ks c k v la : lenN k < 2 ^ 32 -> dKs (descBytes c k v la) = lenN k.
Proof.
  intro H. unfold dKs, descBytes, header. cbv zeta. rewrite <- !app_assoc.
  change (le_enc 4 (lenN k) ++ ?x) with ([] ++ le_enc 4 (lenN k) ++ x).
  rewrite slice_at by (now rewrite ?le_enc_length). now apply le_dec_enc.
Qed.
Lemma desc_vs c k v la : lenN v < 2 ^ 32 -> dVs (descBytes c k v la) = lenN v.
Proof.
  intro H. unfold dVs, descBytes, header. cbv zeta. rewrite <- !app_assoc.
  rewrite slice_at by (now rewrite ?le_enc_length). now apply le_dec_enc.
Qed.
Lemma desc_hash c k v la : dHash (descBytes c k v la) = hash64 c k.
Proof.
  unfold dHash, descBytes, header. cbv zeta. rewrite <- !app_assoc.
  rewrite (app_assoc (le_enc 4 (lenN k))). rewrite slice_at by (now rewrite ?app_length, ?le_enc_length).
  apply le_dec_enc. unfold hash64. apply N.mod_upper_bound. discriminate.
Qed.
Lemma desc_la c k v la : la < 2 ^ 32 -> dLa (descBytes c k v la) = la.
Proof.
  intro H. unfold dLa, descBytes, header. cbv zeta. rewrite <- !app_assoc.
  rewrite (app_assoc (le_enc 4 (lenN k))), (app_assoc (_ ++ _) (le_enc 8 _)).
  rewrite slice_at by (now rewrite ?app_length, ?le_enc_length). now apply le_dec_enc.
Qed.
Lemma desc_cs c k v la : dCs (descBytes c k v la) = if checksumData c then checksum c v else 0.
Proof.
  unfold dCs, descBytes. cbv zeta. rewrite (app_assoc (header _ _ _ _)).
  rewrite slice_at by (now rewrite ?app_length, ?le_enc_length, ?header_length).
  apply le_dec_enc. destruct (checksumData c); [|now vm_compute]. unfold checksum. apply N.mod_upper_bound. discriminate.
Qed.

(** ** An entry in place: it ends at [e] *)
Definition holds (c : cfg) (f : N -> N) (e : N) (x : ent) : Prop :=
  rdl f (e - 32) 32 = descBytes c (eK x) (eV x) (eLa x) /\
  rdl f (e - 32 - lenN (eK x)) (lenN (eK x)) = eK x /\
  rdl f (e - eSz x) (lenN (eV x)) = eV x.
Definition okEnt (c : cfg) (x : ent) : Prop :=
  fits c (eK x) (eV x) /\ eSz x = serializedSize (algn c) (lenN (eK x)) (lenN (eV x)) /\
  eSz x <= kMaxItemSize /\ eLa x < 2 ^ 32.

Lemma algn_pow c : okCfg c -> exists k, algn c = 2 ^ k /\ 9 <= k <= 31.
Proof. intros (_ & D & _). exact (align_pow2 _ D). Qed.
Lemma size_round c k v : okCfg c -> fits c k v ->
  is_round_up (32 + lenN k + lenN v) (algn c) (serializedSize (algn c) (lenN k) (lenN v)).
Proof. intros O F. destruct (algn_pow c O) as (p & E & P). unfold fits in F. rewrite E in *. apply serialized_round; [lia|]. exact F. Qed.
Lemma algn_pos c : okCfg c -> 512 <= algn c /\ (512 | algn c).
Proof.
  intro O. destruct (algn_pow c O) as (p & E & P). rewrite E. split.
  - change 512 with (2 ^ 9). apply N.pow_le_mono_r; lia.
  - exists (2 ^ (p - 9)). change 512 with (2 ^ 9). rewrite <- N.pow_add_r. f_equal. lia.
Qed.
Lemma size_facts c x : okCfg c -> okEnt c x ->
  (algn c | eSz x) /\ 32 + lenN (eK x) + lenN (eV x) <= eSz x /\ 0 < eSz x /\ lenN (eK x) < 2 ^ 32 /\ lenN (eV x) < 2 ^ 32.
Proof.
  intros O (F & E & M & _). pose proof (size_round c _ _ O F) as (D & L & U). rewrite <- E in *.
  unfold fits in F. change U32 with (2 ^ 32) in F. destruct (algn_pos c O). repeat split; auto; lia.
Qed.
Lemma hint_enough c sz : okCfg c -> (algn c | sz) -> 0 < sz -> sz <= kMaxItemSize -> sz <= regionSize c ->
  sz <= decodeSizeHint (storedHint c (encodeSizeHint sz)).
Proof.
  intros O D Z M R. destruct (algn_pos c O) as (_ & D5).
  destruct (C28_size_hint sz M) as (_ & X). pose proof (X (N.divide_trans _ _ _ D5 D)) as E.
  set (h := encodeSizeHint sz) in *. assert (Hh : h < 2 ^ 16) by (unfold h, encodeSizeHint; apply N.mod_upper_bound; discriminate).
  assert (E2 : h * 512 = sz).
  { unfold decodeSizeHint in E. change kMinAllocAlignSize with 512 in E. rewrite N.mod_small in E; [exact E|].
    change U32 with (2 ^ 32). change (2 ^ 16) with 65536 in Hh. change (2 ^ 32) with 4294967296. lia. }
  destruct O as (_ & _ & _ & SH). destruct (SH h ltac:(lia) Hh ltac:(lia)) as (S1 & S2).
  unfold decodeSizeHint. change kMinAllocAlignSize with 512. rewrite N.mod_small; [lia|].
  change U32 with 4294967296. change (2 ^ 16) with 65536 in S2. lia.
Qed.
Lemma dec_enc c r e : okCfg c -> r < nregs c -> 0 < e -> e <= regionSize c -> (algn c | e) -> dec c (enc c r e) = (r, e).
Proof.
  intros (V & D & M & _) R E0 E1 DV. unfold dec, enc.
  destruct (valid_inv _ _ _ V) as (A & R0 & AR & R30 & (n & C) & _).
  assert (N0 : nregs c = n) by (unfold nregs; rewrite C; apply N.div_mul; lia).
  eapply (C28_address_roundtrip _ _ _ n (r, e) V C D).
  - repeat split; cbn [fst snd]; auto; lia.
  - unfold position. cbn [fst snd]. eapply N.le_lt_trans; [|exact M]. rewrite C. rewrite N0 in R. nia.
Qed.

(** writing a slot puts the entry there *)
Lemma write_holds c f start k v la x : okCfg c -> okEnt c x -> eK x = k -> eV x = v -> eLa x = la ->
  holds c (writeEntry c f start (eSz x) k v la) (start + eSz x) x.
Proof.
  intros O K <- <- <-. destruct (size_facts c x O K) as (_ & L & _ & _).
  set (sz := eSz x) in *. set (k := eK x) in *. set (v := eV x) in *. unfold writeEntry.
  assert (LD : lenN (descBytes c k v (eLa x)) = 32) by (unfold lenN; now rewrite desc_length).
  split; [|split]; fold k; fold v; fold sz.
  - transitivity (rdl (wrl f (start + sz - 32) (descBytes c k v (eLa x))) (start + sz - 32) (lenN (descBytes c k v (eLa x)))); [|apply rdl_wrl_same].
    rewrite LD. apply rdl_ext. intros y Y1 Y2. do 2 rewrite wrl_out by lia. reflexivity.
  - transitivity (rdl (wrl (wrl f (start + sz - 32) (descBytes c k v (eLa x))) (start + sz - 32 - lenN k) k) (start + sz - 32 - lenN k) (lenN k)); [|apply rdl_wrl_same].
    apply rdl_ext. intros y Y1 Y2. rewrite wrl_out; auto; lia.
  - replace (start + sz - sz) with start by lia. apply rdl_wrl_same.
Qed.
Lemma write_frame c f start sz k v la y : 32 + lenN k + lenN v <= sz -> y < start \/ start + sz <= y ->
  writeEntry c f start sz k v la y = f y.
Proof.
  intros L Y. assert (LD : lenN (descBytes c k v la) = 32) by (unfold lenN; now rewrite desc_length).
  unfold writeEntry. rewrite !wrl_out; auto; lia.
Qed.
Lemma holds_ext c f g e x : 32 + lenN (eK x) + lenN (eV x) <= eSz x -> eSz x <= e ->
  (forall y, e - eSz x <= y -> y < e -> f y = g y) -> holds c f e x -> holds c g e x.
Proof.
  intros L E H (A1 & A2 & A3). repeat split.
  - rewrite <- A1. apply rdl_ext. intros. symmetry. apply H; lia.
  - rewrite <- A2 at 3. apply rdl_ext. intros. symmetry. apply H; lia.
  - rewrite <- A3 at 2. apply rdl_ext. intros. symmetry. apply H; lia.
Qed.

(** reading it back: the value if the key is the one asked for, a miss otherwise *)
Lemma read_held c f d2 e hb x k : okCfg c -> okEnt c x -> holds c f e x -> eSz x <= e -> eSz x <= hb ->
  readEntry c (Some f) d2 e hb k = if bytes_eqb (eK x) k then ROk (eV x) (eLa x) else RMiss.
Proof.
  intros O K (H1 & H2 & H3) Le Lh. destruct (size_facts c x O K) as (_ & L & _ & K32 & V32).
  destruct K as (_ & ES & _ & LA).
  unfold readEntry. set (n := N.min hb e). assert (Ln : eSz x <= n) by (unfold n; lia). assert (n <= e) by (unfold n; lia).
  replace (n <? 32) with false by (symmetry; apply N.ltb_ge; lia).
  cbv zeta. replace (skipn (N.to_nat (n - 32)) (rdl f (e - n) n)) with (descBytes c (eK x) (eV x) (eLa x)).
  2:{ rewrite skipn_rdl by lia. rewrite <- H1. f_equal; lia. }
  rewrite desc_self, desc_ks, desc_vs, desc_hash by auto. cbn [negb].
  replace (n <? 32 + lenN (eK x)) with false by (symmetry; apply N.ltb_ge; lia).
  rewrite slice_rdl by lia. replace (e - n + (n - 32 - lenN (eK x))) with (e - 32 - lenN (eK x)) by lia. rewrite H2.
  destruct (bytes_eqb (eK x) k) eqn:B.
  - apply bytes_eqb_spec in B. rewrite <- B, N.eqb_refl. cbn [andb negb]. rewrite <- ES.
    replace (eSz x <=? n) with true by (symmetry; apply N.leb_le; lia).
    rewrite skipn_rdl by lia. replace (e - n + (n - eSz x)) with (e - eSz x) by lia. replace (n - (n - eSz x)) with (eSz x) by lia.
    unfold readValue. rewrite desc_vs, desc_cs, desc_la by auto.
    unfold lenN at 1. rewrite rdl_length, N2Nat.id. replace (eSz x <? lenN (eV x)) with false by (symmetry; apply N.ltb_ge; lia).
    rewrite firstn_rdl by lia. rewrite H3. destruct (checksumData c); cbn [andb]; [|reflexivity]. now rewrite N.eqb_refl.
  - now rewrite andb_false_r.
Qed.
Lemma parse_held c f e x : okCfg c -> okEnt c x -> holds c f e x -> eSz x <= e ->
  parseAt c f e = Some {| pSz := eSz x; pK := eK x; pV := eV x; pCs := if checksumData c then checksum c (eV x) else 0 |}.
Proof.
  intros O K (H1 & H2 & H3) Le. destruct (size_facts c x O K) as (_ & L & _ & K32 & V32). destruct K as (_ & ES & _ & _).
  unfold parseAt. cbv zeta. rewrite H1, desc_self, desc_ks, desc_vs, desc_cs by auto.
  replace (e <? 32) with false by (symmetry; apply N.ltb_ge; lia).
  replace (e <? 32 + lenN (eK x)) with false by (symmetry; apply N.ltb_ge; lia).
  cbn [orb negb]. rewrite <- ES. replace (e <? eSz x) with false by (symmetry; apply N.ltb_ge; lia).
  now rewrite H2, H3.
Qed.

From Coq Require Import List Arith NArith Lia Bool.
Import ListNotations.
From Verif Require Import Bytes MetaRec_model MetaRec_spec.
Ltac Zify.zify_post_hook ::= idtac.

(** ** Lists *)
Lemma zeros_length n : length (zeros n) = n.
Proof. apply repeat_length. Qed.

Lemma slice_slice {A} (l : list A) p n a b : a + b <= n ->
  slice (slice l p n) a b = slice l (p + a) b.
Proof.
  intros H. unfold slice. rewrite skipn_firstn_comm, firstn_firstn.
  replace (Nat.min b (n - a)) with b by lia. rewrite Nat.add_comm, skipn_add. reflexivity.
Qed.

Lemma slice_plus {A} (l : list A) p n m : slice l p n ++ slice l (p + n) m = slice l p (n + m).
Proof.
  unfold slice. rewrite (Nat.add_comm p n), skipn_add.
  generalize (skipn p l) as x. clear l p. induction n as [|n IH]; intros x; [reflexivity|].
  destruct x as [|a x]; [cbn; now rewrite firstn_nil|].
  cbn [firstn skipn Nat.add app]. f_equal. apply IH.
Qed.

Lemma slice_firstn {A} (l : list A) p n m : p + n <= m -> slice (firstn m l) p n = slice l p n.
Proof.
  intros H. unfold slice. rewrite skipn_firstn_comm, firstn_firstn.
  replace (Nat.min n (m - p)) with n by lia. reflexivity.
Qed.

Lemma slice_firstn0 {A} (l : list A) n : slice l 0 n = firstn n l.
Proof. reflexivity. Qed.

Lemma firstn_splice_le {A} (l new : list A) off n : n <= off -> off <= length l ->
  firstn n (splice l off new) = firstn n l.
Proof.
  intros H Hl. unfold splice. rewrite firstn_app, firstn_firstn, firstn_length.
  replace (Nat.min n off) with n by lia. replace (n - Nat.min off (length l)) with 0 by lia.
  cbn [firstn]. apply app_nil_r.
Qed.

Lemma firstn_splice {A} (l new : list A) off : off <= length l ->
  firstn (off + length new) (splice l off new) = firstn off l ++ new.
Proof.
  intros Hl. unfold splice. rewrite app_assoc, firstn_app.
  rewrite firstn_all2; [|rewrite app_length, firstn_length; lia].
  rewrite app_length, firstn_length.
  replace (off + length new - (Nat.min off (length l) + length new)) with 0 by lia.
  cbn [firstn]. apply app_nil_r.
Qed.

Lemma skipn_splice {A} (l new : list A) off n : off + length new <= n -> off + length new <= length l ->
  skipn n (splice l off new) = skipn n l.
Proof.
  intros H Hl. unfold splice. rewrite app_assoc, skipn_app.
  rewrite skipn_all2; [|rewrite app_length, firstn_length; lia].
  rewrite app_length, firstn_length, Nat.min_l by lia. cbn [app].
  rewrite <- skipn_add. f_equal. lia.
Qed.

Lemma slice_splice {A} (l new : list A) off : off <= length l ->
  slice (splice l off new) off (length new) = new.
Proof.
  intros Hl. unfold slice, splice. rewrite skipn_app, firstn_length.
  rewrite skipn_all2 by (rewrite firstn_length; lia).
  replace (off - Nat.min off (length l)) with 0 by lia. cbn [skipn app].
  rewrite firstn_app, firstn_all, Nat.sub_diag. cbn [firstn]. apply app_nil_r.
Qed.

Lemma zeros_app n m : zeros n ++ zeros m = zeros (n + m).
Proof. unfold zeros. symmetry. apply repeat_app. Qed.

Lemma slice_zeros n p m : p + m <= n -> slice (zeros n) p m = zeros m.
Proof.
  intros H. replace n with (p + (m + (n - p - m))) by lia. rewrite <- !zeros_app.
  apply slice_app_mid; now rewrite zeros_length.
Qed.

(** ** Rounding *)
Lemma roundUp_0 B : 0 < B -> roundUp B 0 = 0.
Proof. intros H. unfold roundUp. rewrite Nat.div_small by lia. reflexivity. Qed.

Lemma roundUp_in B k i : 0 < i -> i <= B -> roundUp B (k * B + i) = k * B + B.
Proof.
  intros H1 H2. unfold roundUp.
  replace (k * B + i + B - 1) with ((k + 1) * B + (i - 1)) by lia.
  rewrite Nat.div_add_l by lia. rewrite Nat.div_small by lia. lia.
Qed.

Lemma roundUp_mult B k : 0 < B -> roundUp B (k * B) = k * B.
Proof.
  intros H. destruct k as [|k]; [apply roundUp_0, H|].
  replace (S k * B) with (k * B + B) at 1 by lia. rewrite roundUp_in by lia. lia.
Qed.

Lemma roundUp_ge B p : 0 < B -> p <= roundUp B p /\ roundUp B p < p + B.
Proof.
  intros H. unfold roundUp. pose proof (Nat.div_mod (p + B - 1) B ltac:(lia)) as D.
  pose proof (Nat.mod_upper_bound (p + B - 1) B ltac:(lia)).
  rewrite (Nat.mul_comm B) in D. lia.
Qed.

Lemma roundUp_form B p : exists k, roundUp B p = k * B.
Proof. unfold roundUp. eauto. Qed.

Lemma roundUp_mono B p q : 0 < B -> p <= q -> roundUp B p <= roundUp B q.
Proof.
  intros H L. unfold roundUp. apply Nat.mul_le_mono_r, Nat.div_le_mono; lia.
Qed.

Section Rec.
Variable dh : list byte -> N.
Variable hh : list byte -> N.
Variable B : nat.
Hypothesis HB : 28 <= B.

Let enc := enc dh hh.
Let hdr := hdr dh hh.

Definition pad (p : nat) : nat := if roundUp B p - p <? 28 then roundUp B p - p else 0.
Definition push (S : list byte) (d : list byte) : list byte :=
  S ++ zeros (pad (length S)) ++ enc d.
Definition stream (S : list byte) (rs : list (list byte)) : list byte := fold_left push rs S.

Lemma hdr0_length d : length (hdr0 dh d) = 24.
Proof. unfold hdr0, hmagic. rewrite !app_length, !le_enc_length. reflexivity. Qed.
Lemma hdr_length d : length (hdr d) = 28.
Proof. unfold hdr, MetaRec_model.hdr. rewrite app_length, hdr0_length, le_enc_length. reflexivity. Qed.
Lemma enc_length d : length (enc d) = 28 + length d.
Proof. unfold enc, MetaRec_model.enc. rewrite app_length. fold (hdr d). rewrite hdr_length. reflexivity. Qed.

Lemma push_length S d : length (push S d) = place B (length S) (length d).
Proof.
  unfold push, place, pad. rewrite !app_length, zeros_length, enc_length.
  pose proof (roundUp_ge B (length S) ltac:(lia)).
  destruct (roundUp B (length S) - length S <? 28); lia.
Qed.

Lemma stream_length rs : forall S,
  length (stream S rs) = fold_left (fun p d => place B p (length d)) rs (length S).
Proof.
  induction rs as [|d rs IH]; intros S; [reflexivity|].
  cbn [stream fold_left]. fold (stream (push S d) rs). rewrite IH, push_length. reflexivity.
Qed.

Lemma stream_pre rs : forall S, exists X, stream S rs = S ++ X.
Proof.
  induction rs as [|d rs IH]; intros S; [exists []; cbn; now rewrite app_nil_r|].
  cbn [stream fold_left]. destruct (IH (push S d)) as [X E].
  unfold stream in E. rewrite E. unfold push. eexists. rewrite <- !app_assoc. reflexivity.
Qed.

(** ** Headers *)
Lemma slice_hdr d a b : a + b <= 28 -> slice (enc d) a b = slice (hdr d) a b.
Proof. clear HB B. intros H. unfold enc, MetaRec_model.enc. apply slice_app_l. fold (hdr d). rewrite hdr_length. lia. Qed.

Lemma validHeader_hdr r d : slice r 0 28 = hdr d -> validHeader hh r = true.
Proof. clear HB B.
  intros E. assert (L : 28 <= length r).
  { apply (f_equal (@length _)) in E. rewrite hdr_length in E. unfold slice in E.
    rewrite firstn_length, skipn_length in E. lia. }
  assert (G : forall a b, a + b <= 28 -> slice r a b = slice (hdr d) a b).
  { intros a b H. rewrite <- E, slice_slice by lia. reflexivity. }
  assert (G24 : slice r 0 24 = hdr0 dh d).
  { rewrite G by lia. unfold hdr, MetaRec_model.hdr. rewrite slice_app_l by (rewrite hdr0_length; lia).
    unfold slice. cbn [skipn]. rewrite firstn_all2; [reflexivity | rewrite hdr0_length; lia]. }
  unfold validHeader. rewrite G24, !G by lia.
  replace (hsize <=? length r) with true by (symmetry; apply Nat.leb_le; exact L).
  unfold hdr, MetaRec_model.hdr.
  assert (S24 : slice (hdr0 dh d ++ le_enc 4 (hh (hdr0 dh d))) 24 4 = le_enc 4 (hh (hdr0 dh d))).
  { rewrite <- (app_nil_r (le_enc 4 (hh (hdr0 dh d)))) at 1.
    apply slice_app_mid; [now rewrite hdr0_length | now rewrite le_enc_length]. }
  rewrite S24.
  rewrite !slice_app_l by (rewrite hdr0_length; lia).
  rewrite !bytes_eqb_refl.
  reflexivity.
Qed.

Lemma hlen_hdr r d : slice r 0 28 = hdr d -> (N.of_nat (length d) < two32)%N -> hlen r = length d.
Proof. clear HB B.
  intros E H. unfold hlen.
  assert (G : slice r 12 4 = le_enc 4 (N.of_nat (length d))).
  { replace (slice r 12 4) with (slice (slice r 0 28) 12 4) by (rewrite slice_slice by lia; reflexivity).
    rewrite E. unfold hdr, MetaRec_model.hdr. rewrite slice_app_l by (rewrite hdr0_length; lia).
    reflexivity. }
  rewrite G, le_dec_enc; [apply Nnat.Nat2N.id|]. exact H.
Qed.

Lemma validData_enc d : d <> [] -> (N.of_nat (length d) < two32)%N -> validData dh (enc d) = true.
Proof. clear HB B.
  intros N H. assert (L : hlen (enc d) = length d).
  { apply hlen_hdr; [|exact H]. rewrite slice_hdr by lia.
    rewrite <- (hdr_length d). apply firstn_all. }
  unfold validData. rewrite L, enc_length.
  assert (0 < length d) by (destruct d; [congruence | cbn; lia]).
  replace (hsize <? 28 + length d) with true by (symmetry; apply Nat.ltb_lt; unfold hsize; lia).
  replace (length d <=? 28 + length d - hsize) with true
    by (symmetry; apply Nat.leb_le; unfold hsize; lia).
  assert (G : slice (enc d) 16 8 = le_enc 8 (dh d)).
  { rewrite slice_hdr by lia. unfold hdr, MetaRec_model.hdr.
    rewrite slice_app_l by (rewrite hdr0_length; lia). reflexivity. }
  assert (G2 : slice (enc d) hsize (length d) = d).
  { unfold enc, MetaRec_model.enc. fold (hdr d).
    rewrite slice_app_r by (rewrite hdr_length; unfold hsize; lia).
    rewrite hdr_length. unfold hsize. rewrite Nat.sub_diag. apply firstn_all. }
  rewrite G, G2, bytes_eqb_refl. reflexivity.
Qed.

Lemma validHeader_zero r : slice r 0 4 = zeros 4 -> validHeader hh r = false.
Proof.
  intros E. unfold validHeader. rewrite E. change (bytes_eqb (zeros 4) hmagic) with false.
  rewrite andb_false_r. reflexivity.
Qed.

End Rec.

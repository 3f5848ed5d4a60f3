(** Byte strings and little-endian integers shared by the byte-level models.
    Nothing here models CacheLib code itself: it is the memory the modelled
    code reads and writes.  A byte is an [N] below 256.  x86-64/aarch64 are
    little endian, which is how the packed structs of /repo are laid out. *)
From Coq Require Export List Arith NArith ZArith Lia Bool.
From Coq Require Import ZifyBool ZifyNat ZifyN.
Export ListNotations.
Ltac Zify.zify_post_hook ::= Z.div_mod_to_equations.
Set Implicit Arguments.

Definition byte := N.
Definition is_byte (b : N) : Prop := (b < 256)%N.
Definition is_byteb (b : N) : bool := (b <? 256)%N.

(** [slice l off len] : the [len] elements starting at [off]. *)
Definition slice {A} (l : list A) (off len : nat) : list A :=
  firstn len (skipn off l).

(** [splice l off new] : overwrite [l] at [off] with [new] (memcpy). *)
Definition splice {A} (l : list A) (off : nat) (new : list A) : list A :=
  firstn off l ++ new ++ skipn (off + length new) l.

(** memmove(data+dst, data+src, len): all source bytes are read first. *)
Definition memmove {A} (l : list A) (dst src len : nat) : list A :=
  splice l dst (slice l src len).

(** Little-endian encoding on [w] bytes. *)
Fixpoint le_enc (w : nat) (v : N) : list byte :=
  match w with
  | O => []
  | S w' => (v mod 256)%N :: le_enc w' (v / 256)%N
  end.

Fixpoint le_dec (l : list byte) : N :=
  match l with
  | [] => 0%N
  | b :: r => (b + 256 * le_dec r)%N
  end.

(** Reads that fall outside the buffer are undefined behaviour: [None]. *)
Definition rd (w : nat) (l : list byte) (off : nat) : option N :=
  if off + w <=? length l then Some (le_dec (slice l off w)) else None.

Definition rd_bytes (l : list byte) (off len : nat) : option (list byte) :=
  if off + len <=? length l then Some (slice l off len) else None.

(** Writes that fall outside the buffer are undefined behaviour: [None]. *)
Definition wr (l : list byte) (off : nat) (new : list byte) : option (list byte) :=
  if off + length new <=? length l then Some (splice l off new) else None.

Definition two32 : N := 4294967296%N.
Definition two64 : N := 18446744073709551616%N.
Definition wrap32 (v : N) : N := (v mod two32)%N.
Definition wrap64 (v : N) : N := (v mod two64)%N.

Fixpoint list_eqb {A} (eqb : A -> A -> bool) (a b : list A) : bool :=
  match a, b with
  | [], [] => true
  | x :: a', y :: b' => eqb x y && list_eqb eqb a' b'
  | _, _ => false
  end.
Definition bytes_eqb (a b : list byte) : bool := list_eqb N.eqb a b.

Notation "'let*' x := e 'in' f" := (match e with Some x => f | None => None end)
  (at level 200, x pattern, e at level 100, f at level 200, right associativity).

(** ** Lemmas *)

Lemma list_eqb_spec {A} (eqb : A -> A -> bool)
  (H : forall x y, eqb x y = true <-> x = y) :
  forall a b, list_eqb eqb a b = true <-> a = b.
Proof.
  induction a as [|x a IH]; intros [|y b]; simpl; split; intros E;
    try reflexivity; try discriminate.
  - apply andb_true_iff in E as [E1 E2]. f_equal; [apply H | apply IH]; assumption.
  - inversion E; subst. apply andb_true_iff; split; [apply H | apply IH]; reflexivity.
Qed.

Lemma bytes_eqb_spec a b : bytes_eqb a b = true <-> a = b.
Proof. apply list_eqb_spec. intros; apply N.eqb_eq. Qed.

Lemma bytes_eqb_refl a : bytes_eqb a a = true.
Proof. apply bytes_eqb_spec. reflexivity. Qed.

Lemma slice_length {A} (l : list A) off len :
  off + len <= length l -> length (slice l off len) = len.
Proof. intros H. unfold slice. rewrite firstn_length, skipn_length. lia. Qed.

Lemma slice_app_mid {A} (a b c : list A) off len :
  off = length a -> len = length b -> slice (a ++ b ++ c) off len = b.
Proof.
  intros -> ->. unfold slice.
  rewrite skipn_app, skipn_all, Nat.sub_diag. simpl.
  rewrite firstn_app, firstn_all, Nat.sub_diag. simpl. apply app_nil_r.
Qed.

Lemma slice_app_l {A} (a b : list A) off len :
  off + len <= length a -> slice (a ++ b) off len = slice a off len.
Proof.
  intros H. unfold slice. rewrite skipn_app.
  rewrite firstn_app, skipn_length.
  replace (len - (length a - off)) with 0 by lia. simpl. apply app_nil_r.
Qed.

Lemma slice_app_r {A} (a b : list A) off len :
  length a <= off -> slice (a ++ b) off len = slice b (off - length a) len.
Proof.
  intros H. unfold slice. rewrite skipn_app.
  rewrite skipn_all2 by lia. reflexivity.
Qed.

Lemma splice_app_mid {A} (a b c new : list A) off :
  off = length a -> length new = length b ->
  splice (a ++ b ++ c) off new = a ++ new ++ c.
Proof.
  intros -> Hl. unfold splice. rewrite Hl.
  rewrite firstn_app, firstn_all, Nat.sub_diag. simpl. rewrite app_nil_r.
  f_equal. f_equal.
  rewrite app_assoc, skipn_app, app_length.
  rewrite skipn_all2 by (rewrite app_length; lia).
  replace (_ - _) with 0 by lia. reflexivity.
Qed.

Lemma splice_length {A} (l new : list A) off :
  off + length new <= length l -> length (splice l off new) = length l.
Proof.
  intros H. unfold splice.
  rewrite !app_length, firstn_length, skipn_length. lia.
Qed.

Lemma le_enc_length w v : length (le_enc w v) = w.
Proof. revert v; induction w; simpl; intros; [reflexivity|]. now rewrite IHw. Qed.

Lemma le_dec_enc w v : (v < 256 ^ N.of_nat w)%N -> le_dec (le_enc w v) = v.
Proof.
  revert v; induction w as [|w IH]; intros v H; cbn [le_enc le_dec].
  - change (256 ^ N.of_nat 0)%N with 1%N in H. lia.
  - rewrite IH.
    + rewrite N.add_comm. rewrite <- (N.div_mod v 256) by discriminate. reflexivity.
    + rewrite Nat2N.inj_succ, N.pow_succ_r in H by lia.
      apply N.div_lt_upper_bound; [discriminate|]. lia.
Qed.

Lemma le_enc_bytes w v : Forall is_byte (le_enc w v).
Proof.
  revert v; induction w as [|w IH]; intros v; cbn [le_enc]; constructor; [|apply IH].
  unfold is_byte. apply N.mod_lt. discriminate.
Qed.

Lemma le_dec_bound l : Forall is_byte l -> (le_dec l < 256 ^ N.of_nat (length l))%N.
Proof.
  induction l as [|b l IH]; intros H; cbn [le_dec length].
  - reflexivity.
  - inversion H as [|? ? Hb Hl]; subst. specialize (IH Hl). unfold is_byte in Hb.
    rewrite Nat2N.inj_succ, N.pow_succ_r by lia. lia.
Qed.

Lemma rd_app_mid w a v c off :
  off = length a -> (v < 256 ^ N.of_nat w)%N ->
  rd w (a ++ le_enc w v ++ c) off = Some v.
Proof.
  intros Ho Hv. unfold rd.
  rewrite !app_length, le_enc_length.
  destruct (Nat.leb_spec (off + w) (length a + (w + length c))); [|lia].
  rewrite slice_app_mid; [|assumption|now rewrite le_enc_length].
  now rewrite le_dec_enc.
Qed.

Lemma rd_bytes_app_mid a b c off len :
  off = length a -> len = length b ->
  rd_bytes (a ++ b ++ c) off len = Some b.
Proof.
  intros Ho Hv. unfold rd_bytes. rewrite !app_length.
  destruct (Nat.leb_spec (off + len) (length a + (length b + length c))); [|lia].
  now rewrite slice_app_mid.
Qed.

Lemma wr_app_mid (a b c new : list byte) off :
  off = length a -> length new = length b ->
  wr (a ++ b ++ c) off new = Some (a ++ new ++ c).
Proof.
  intros Ho Hl. unfold wr. rewrite !app_length.
  destruct (Nat.leb_spec (off + length new) (length a + (length b + length c))); [|lia].
  now rewrite splice_app_mid.
Qed.

Lemma skipn_add {A} (l : list A) n m : skipn (n + m) l = skipn n (skipn m l).
Proof.
  revert l; induction m as [|m IH]; intros l.
  - now rewrite Nat.add_0_r.
  - destruct l as [|x l]; [now rewrite !skipn_nil|].
    rewrite Nat.add_succ_r. cbn [skipn]. apply IH.
Qed.

Lemma app_eq_length {A} (a b c d : list A) :
  length a = length b -> a ++ c = b ++ d -> a = b /\ c = d.
Proof.
  revert b; induction a as [|x a IH]; intros [|y b] L E; cbn in *; try discriminate.
  - auto.
  - inversion E; subst. destruct (IH b) as [-> ->]; auto.
Qed.

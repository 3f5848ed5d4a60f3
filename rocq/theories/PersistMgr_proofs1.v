(** Lemmas about blocks. *)
From Coq Require Import List Arith ZArith Bool Lia.
Import ListNotations.
From Verif Require Import PersistMgr_model PersistMgr_spec.
Open Scope Z_scope.

Lemma enc_len : forall n x, length (enc n x) = n.
Proof. induction n; simpl; intros; auto. Qed.

Lemma dec_enc : forall n x, 0 <= x < 256 ^ Z.of_nat n -> dec (enc n x) = x.
Proof.
  induction n; intros x H.
  - cbn in *. lia.
  - rewrite Nat2Z.inj_succ, Z.pow_succ_r in H by lia.
    cbn [enc dec]. rewrite IHn.
    + pose proof (Z_div_mod_eq_full x 256). lia.
    + split; [apply Z.div_pos; lia | apply Z.div_lt_upper_bound; lia].
Qed.

Lemma firstn_app_l {A} : forall n (a b : list A), length a = n -> firstn n (a ++ b) = a.
Proof. intros n a b <-. rewrite firstn_app, Nat.sub_diag, firstn_all. simpl. apply app_nil_r. Qed.
Lemma skipn_app_l {A} : forall n (a b : list A), length a = n -> skipn n (a ++ b) = b.
Proof. intros n a b <-. rewrite skipn_app, Nat.sub_diag, skipn_all. reflexivity. Qed.

Lemma chunk_len : forall L j d, (length (chunk L j d) <= blk L)%nat.
Proof. intros. unfold chunk. rewrite firstn_length. lia. Qed.

Lemma block_len : forall L g d, goodLib L -> length (g d) = length d -> (length d <= blk L)%nat ->
  length (block L g d) = (8 + blk L)%nat.
Proof. intros L g d G H H0. unfold block. rewrite !app_length, !enc_len, H, (gP L G). lia. Qed.

Lemma chunks_app : forall L d k n,
  flat_map (fun j => chunk L j d) (seq k n) = firstn (n * blk L) (skipn (k * blk L) d).
Proof.
  intros L d k n. revert k. induction n; intros k; [reflexivity|].
  cbn [seq flat_map]. rewrite IHn. unfold chunk.
  replace (S k * blk L)%nat with (blk L + k * blk L)%nat by lia.
  replace (S n * blk L)%nat with (blk L + n * blk L)%nat by lia.
  assert (X : forall (e : list Z) a b, firstn (a + b) e = firstn a e ++ firstn b (skipn a e)).
  { intros e a. revert e. induction a; intros e b; [reflexivity|]. destruct e; simpl; [destruct b; reflexivity|]. f_equal. apply IHa. }
  assert (Y : forall (e : list Z) a b, skipn (a + b) e = skipn a (skipn b e)).
  { intros e a b. revert e. rewrite Nat.add_comm. induction b; intros e; [reflexivity|]. destruct e; simpl; [destruct a; reflexivity|]. apply IHb. }
  rewrite X, <- Y. reflexivity.
Qed.

Lemma flat_len {A} : forall (f g : A -> list Z) l, (forall x, length (f x) = length (g x)) ->
  length (flat_map f l) = length (flat_map g l).
Proof. induction l; simpl; intros; auto. rewrite !app_length, H, IHl; auto. Qed.

Lemma rblocks_good : forall L, goodLib L -> forall g d x bound n k acc,
  (forall j e, length (g j e) = length e) ->
  (forall b, bound = Some b -> Z.of_nat (length acc + length (flat_map (fun j => chunk L j d) (seq k n))) <= b) ->
  rblocks L bound n (flat_map (fun j => block L (g j) (chunk L j d)) (seq k n) ++ x) acc =
  if forallb (fun j => crc L (g j (chunk L j d)) =? crc L (chunk L j d)) (seq k n)
  then BOk (acc ++ flat_map (fun j => g j (chunk L j d)) (seq k n)) x else BFail.
Proof.
  intros L G g d x bound n. induction n; intros k acc HL HB.
  { simpl. rewrite app_nil_r. reflexivity. }
  cbn [seq flat_map forallb rblocks].
  set (c := chunk L k d). pose proof (chunk_len L k d) as Hc. fold c in Hc.
  assert (Hb : length (block L (g k) c) = (8 + blk L)%nat) by (apply block_len; auto).
  rewrite <- app_assoc.
  set (rest := flat_map _ _ ++ x).
  destruct (Nat.ltb_spec (length (block L (g k) c ++ rest)) (8 + blk L)) as [E|E].
  { rewrite app_length in E. lia. }
  clear E. destruct (gB L G) as [B0 B1].
  assert (E4 : firstn 4 (block L (g k) c ++ rest) = enc 4 (crc L c)).
  { unfold block. rewrite <- app_assoc. apply firstn_app_l, enc_len. }
  assert (E8 : firstn 4 (skipn 4 (block L (g k) c ++ rest)) = enc 4 (Z.of_nat (length c))).
  { unfold block. rewrite <- app_assoc, skipn_app_l by apply enc_len. rewrite <- app_assoc. apply firstn_app_l, enc_len. }
  assert (ED : firstn (blk L) (skipn 8 (block L (g k) c ++ rest)) = g k c ++ padOf L c).
  { unfold block. rewrite app_assoc, <- app_assoc.
    rewrite (skipn_app_l 8) by (rewrite app_length, !enc_len; reflexivity).
    apply firstn_app_l. rewrite app_length, HL, (gP L G). lia. }
  rewrite E4, E8, ED, (skipn_app_l _ _ _ Hb).
  rewrite (dec_enc 4 (crc L c)) by (change (256 ^ Z.of_nat 4) with (2 ^ 32); apply (gC L G)).
  rewrite (dec_enc 4 (Z.of_nat (length c))) by (change (256 ^ Z.of_nat 4) with (2 ^ 32); lia).
  destruct (Z.ltb_spec (Z.of_nat (blk L)) (Z.of_nat (length c))); [lia|].
  rewrite Nat2Z.id, firstn_app_l by apply HL.
  destruct (Z.eqb_spec (crc L (g k c)) (crc L c)) as [Q|Q]; [|reflexivity].
  cbn [negb andb].
  assert (Hx : (match bound with Some b => b <? Z.of_nat (length acc) + Z.of_nat (length c) | None => false end) = false).
  { destruct bound as [b|]; [|reflexivity]. specialize (HB b eq_refl).
    cbn [seq flat_map] in HB. rewrite app_length in HB. fold c in HB. apply Z.ltb_ge. lia. }
  rewrite Hx. unfold rest. rewrite IHn; auto.
  - rewrite <- app_assoc. reflexivity.
  - intros b Eb. specialize (HB b Eb). cbn [seq flat_map] in HB. rewrite app_length in HB. fold c in HB.
    rewrite app_length, HL. lia.
Qed.

Lemma ceil_spec : forall L x, goodLib L -> 0 <= x ->
  x <= Z.of_nat (ceil L x) * Z.of_nat (blk L) < x + Z.of_nat (blk L).
Proof.
  intros L x G H. destruct (gB L G) as [B0 B1]. unfold ceil.
  rewrite Z2Nat.id by (apply Z.div_pos; lia).
  set (b := Z.of_nat (blk L)) in *.
  pose proof (Z_div_mod_eq_full (x + b - 1) b) as Q. pose proof (Z.mod_pos_bound (x + b - 1) b ltac:(lia)). nia.
Qed.

Lemma div_unique_range : forall a b q, 0 < b -> b * q <= a < b * q + b -> a / b = q.
Proof. intros. symmetry. apply (Z.div_unique a b q (a - b * q)); lia. Qed.

(** the rounding of the code *)
Lemma round_up : forall b x, 0 < b -> 0 <= x ->
  (if x mod b =? 0 then x else x + b - x mod b) / b = (x + b - 1) / b.
Proof.
  intros b x Hb Hx. pose proof (Z_div_mod_eq_full x b) as Q. pose proof (Z.mod_pos_bound x b Hb) as M.
  set (q := x / b) in *. set (r := x mod b) in *.
  destruct (Z.eqb_spec r 0).
  - rewrite (div_unique_range x b q) by nia. rewrite (div_unique_range (x + b - 1) b q); nia.
  - rewrite (div_unique_range (x + b - r) b (q + 1)) by nia. rewrite (div_unique_range (x + b - 1) b (q + 1)); nia.
Qed.

Lemma blocks64_ok : forall L x, goodLib L -> 0 <= x < Z.of_nat (blk L) * (2 ^ 31 - 1) ->
  blocks64 L x = Z.of_nat (ceil L x) /\ Z.of_nat (ceil L x) < 2 ^ 31.
Proof.
  intros L x G [H1 H2]. destruct (gB L G) as [B0 B1].
  pose proof (ceil_spec L x G H1) as C. set (b := Z.of_nat (blk L)) in *.
  assert (b * (2 ^ 31 - 1) < 2 ^ 63) by (change (2^63) with (2^32 * 2^31); nia).
  assert (Hc : Z.of_nat (ceil L x) < 2 ^ 31) by nia.
  split; [|exact Hc].
  unfold blocks64, align64. fold b. pose proof (Z.mod_pos_bound x b ltac:(lia)) as M.
  rewrite (Z.mod_small (x + b - x mod b)) by (change (2^64) with (2 * 2^63); lia).
  rewrite round_up by lia.
  replace ((x + b - 1) / b) with (Z.of_nat (ceil L x)) by (unfold ceil; fold b; rewrite Z2Nat.id; [reflexivity | apply Z.div_pos; lia]).
  apply Z.mod_small. lia.
Qed.

Lemma blocks32_ok : forall L x, goodLib L -> 0 <= x < Z.of_nat (blk L) * (2 ^ 31 - 1) -> x <= 2 ^ 32 - Z.of_nat (blk L) ->
  blocks32 L x = Z.of_nat (ceil L x).
Proof.
  intros L x G [H1 H2] H3. destruct (gB L G) as [B0 B1].
  unfold blocks32. set (b := Z.of_nat (blk L)) in *.
  pose proof (Z.mod_pos_bound x b ltac:(lia)) as M.
  rewrite (Z.mod_small x) by lia.
  destruct (Z.eqb_spec (x mod b) 0) as [E|E].
  - pose proof (round_up b x ltac:(lia) H1) as R. rewrite E in R. cbn [Z.eqb] in R. rewrite R.
    unfold ceil. fold b. rewrite Z2Nat.id; [reflexivity | apply Z.div_pos; lia].
  - rewrite (Z.mod_small (x + b - x mod b)) by lia.
    pose proof (round_up b x ltac:(lia) H1) as R. apply Z.eqb_neq in E. rewrite E in R. rewrite R.
    unfold ceil. fold b. rewrite Z2Nat.id; [reflexivity | apply Z.div_pos; lia].
Qed.

Lemma iters_small : forall n, Z.of_nat n < 2 ^ 31 -> iters (Z.of_nat n) = n.
Proof. intros n H. unfold iters. apply Z.ltb_lt in H. rewrite H. apply Nat2Z.id. Qed.

(** all the data are in the blocks *)
Lemma chunks_all : forall L d, goodLib L -> flat_map (fun j => chunk L j d) (seq 0 (ceil L (Z.of_nat (length d)))) = d.
Proof.
  intros L d G. rewrite chunks_app. simpl. apply firstn_all2.
  pose proof (ceil_spec L (Z.of_nat (length d)) G ltac:(lia)). nia.
Qed.

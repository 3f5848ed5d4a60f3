(** C41, part 1: the record codec, and basic lemmas about the helpers. *)
From Verif Require Import Bytes ShmMgr_model ShmMgr_spec.
Ltac Zify.zify_post_hook ::= idtac.

(** ** Codec *)

Definition str_ok (s : list byte) : Prop := (N.of_nat (length s) < kNameMax)%N.
Definition map_ok (m : list (name * list byte)) : Prop :=
  (N.of_nat (length m) < kNameMax)%N /\
  Forall (fun kv => str_ok (fst kv) /\ str_ok (snd kv)) m.

Lemma rd_be4_enc n r : (N.of_nat n < kNameMax)%N ->
  rd_be4 (be4 n ++ r) = Some (N.of_nat n, r).
Proof.
  intros Hn. unfold be4. 
  assert (E : le_dec (le_enc 4 (N.of_nat n)) = N.of_nat n).
  { apply le_dec_enc. unfold kNameMax in Hn. 
    change (256 ^ N.of_nat 4)%N with 4294967296%N. lia. }
  pose proof (le_enc_length 4 (N.of_nat n)) as L.
  destruct (le_enc 4 (N.of_nat n)) as [|a [|b [|c [|d [|]]]]]; try discriminate L.
  cbn [rev app rd_be4]. rewrite E. reflexivity.
Qed.

Lemma rd_str_enc s r : str_ok s -> rd_str (enc_str s ++ r) = Some (s, r).
Proof.
  intros Hs. unfold rd_str, enc_str. rewrite <- app_assoc.
  rewrite rd_be4_enc by exact Hs.
  assert (E : (N.of_nat (length s) <=? N.of_nat (length (s ++ r)))%N = true).
  { apply N.leb_le. rewrite app_length. lia. }
  rewrite E. rewrite Nat2N.id. 
  rewrite firstn_app, firstn_all, Nat.sub_diag, firstn_O, app_nil_r.
  rewrite skipn_app, skipn_all, Nat.sub_diag, skipn_O. reflexivity.
Qed.

Lemma rd_pairs_enc m r :
  Forall (fun kv => str_ok (fst kv) /\ str_ok (snd kv)) m ->
  rd_pairs (length m) (enc_pairs m ++ r) = Some (m, r).
Proof.
  induction m as [|[k v] m IH]; intros F; cbn [length rd_pairs enc_pairs].
  - reflexivity.
  - inversion F as [|? ? [Hk Hv] F']; subst. cbn in Hk, Hv.
    rewrite <- !app_assoc. rewrite rd_str_enc by exact Hk.
    rewrite rd_str_enc by exact Hv. rewrite IH by exact F'. reflexivity.
Qed.

Lemma enc_pairs_len m : length m <= length (enc_pairs m).
Proof.
  induction m as [|[k v] m IH]; cbn [enc_pairs length]; [lia|].
  unfold enc_str, be4. rewrite !app_length, !rev_length.
  cbn [le_enc length]. lia.
Qed.

Lemma rd_map_enc m r : map_ok m ->
  rd_map ([11; 11]%N ++ be4 (length m) ++ enc_pairs m ++ r) = Some (m, r).
Proof.
  intros [Hl F]. cbn [app rd_map]. cbn [N.eqb andb Pos.eqb].
  rewrite rd_be4_enc by exact Hl.
  assert (E : (N.of_nat (length m) <=? N.of_nat (length (enc_pairs m ++ r)))%N = true).
  { apply N.leb_le. rewrite app_length. pose proof (enc_pairs_len m). lia. }
  rewrite E, Nat2N.id. apply rd_pairs_enc. exact F.
Qed.

Lemma rd_fields_enc pos m r f : map_ok m ->
  rd_fields (S (S (S f))) None None (enc_obj pos m ++ r)
  = Some (shmVal pos, m, r).
Proof.
  intros Hm. unfold enc_obj. rewrite <- !app_assoc.
  cbn [app rd_fields]. cbn [N.eqb Pos.eqb andb].
  pose proof (rd_map_enc m (0%N :: r) Hm) as E. cbn [app] in E.
  match goal with |- context [rd_map ?x] =>
    replace (rd_map x) with (Some (m, 0%N :: r)) by (symmetry; exact E) end.
  cbn [N.eqb]. reflexivity.
Qed.

Lemma enc_obj_len pos m : 10 <= length (enc_obj pos m).
Proof.
  unfold enc_obj. rewrite !app_length. unfold be4. rewrite rev_length.
  cbn [length le_enc]. lia.
Qed.

Lemma dec_enc pos m : map_ok m -> dec_obj (enc_obj pos m) = Some (shmVal pos, m).
Proof.
  intros Hm. unfold dec_obj. pose proof (enc_obj_len pos m) as L.
  destruct (length (enc_obj pos m)) as [|[|[|k]]] eqn:E; try lia.
  pose proof (rd_fields_enc pos m [] (S k) Hm) as R. rewrite app_nil_r in R.
  rewrite R. reflexivity.
Qed.

(** Reading more input does not change what was read. *)
Lemma rd_be4_app l n r s : rd_be4 l = Some (n, r) -> rd_be4 (l ++ s) = Some (n, r ++ s).
Proof.
  destruct l as [|a [|b [|c [|d l]]]]; cbn [rd_be4 app]; try discriminate.
  intros E; inversion E; subst; reflexivity.
Qed.

Lemma rd_str_app l x r s : rd_str l = Some (x, r) -> rd_str (l ++ s) = Some (x, r ++ s).
Proof.
  unfold rd_str. destruct (rd_be4 l) as [[n r0]|] eqn:E; [|discriminate].
  rewrite (rd_be4_app _ _ _ s E).
  destruct (n <=? N.of_nat (length r0))%N eqn:L; [|discriminate].
  apply N.leb_le in L.
  assert (L2 : (n <=? N.of_nat (length (r0 ++ s)))%N = true).
  { apply N.leb_le. rewrite app_length. lia. }
  rewrite L2. intros X; inversion X; subst. f_equal. f_equal.
  - rewrite firstn_app.
    assert (Z : N.to_nat n - length r0 = 0) by lia. rewrite Z, firstn_O, app_nil_r.
    reflexivity.
  - rewrite skipn_app.
    assert (Z : N.to_nat n - length r0 = 0) by lia. rewrite Z, skipn_O. reflexivity.
Qed.

Lemma rd_pairs_app n : forall l m r s, rd_pairs n l = Some (m, r) ->
  rd_pairs n (l ++ s) = Some (m, r ++ s).
Proof.
  induction n as [|n IH]; intros l m r s; cbn [rd_pairs].
  - intros E; inversion E; subst; reflexivity.
  - destruct (rd_str l) as [[k r1]|] eqn:E1; [|discriminate].
    rewrite (rd_str_app _ _ _ s E1).
    destruct (rd_str r1) as [[v r2]|] eqn:E2; [|discriminate].
    rewrite (rd_str_app _ _ _ s E2).
    destruct (rd_pairs n r2) as [[m' r3]|] eqn:E3; [|discriminate].
    rewrite (IH _ _ _ s E3). intros E; inversion E; subst; reflexivity.
Qed.

Lemma rd_map_app l m r s : rd_map l = Some (m, r) -> rd_map (l ++ s) = Some (m, r ++ s).
Proof.
  destruct l as [|a [|b l]]; cbn [rd_map app]; try discriminate.
  destruct ((a =? 11)%N && (b =? 11)%N); [|discriminate].
  destruct (rd_be4 l) as [[n r0]|] eqn:E; [|discriminate].
  rewrite (rd_be4_app _ _ _ s E).
  destruct (n <=? N.of_nat (length r0))%N eqn:L; [|discriminate].
  apply N.leb_le in L.
  assert (L2 : (n <=? N.of_nat (length (r0 ++ s)))%N = true).
  { apply N.leb_le. rewrite app_length. lia. }
  rewrite L2. apply rd_pairs_app.
Qed.

Lemma rd_fields_app f : forall g sv mp l x y r s, f <= g ->
  rd_fields f sv mp l = Some (x, y, r) ->
  rd_fields g sv mp (l ++ s) = Some (x, y, r ++ s).
Proof.
  induction f as [|f IH]; intros g sv mp l x y r s Hg; cbn [rd_fields]; [discriminate|].
  destruct g as [|g]; [lia|]. cbn [rd_fields].
  destruct l as [|t l]; cbn [app]; [discriminate|].
  destruct (t =? 0)%N.
  - destruct sv, mp; try discriminate. intros E; inversion E; subst; reflexivity.
  - destruct l as [|i1 [|i0 l]]; cbn [app]; try discriminate.
    destruct ((t =? 3)%N && (i1 =? 0)%N && (i0 =? 1)%N).
    + destruct l as [|b l]; cbn [app]; [discriminate|]. apply IH. lia.
    + destruct ((t =? 13)%N && (i1 =? 0)%N && (i0 =? 3)%N); [|discriminate].
      destruct (rd_map l) as [[m r3]|] eqn:E; [|discriminate].
      rewrite (rd_map_app _ _ _ s E). apply IH. lia.
Qed.

(** A record cut short never reads back. *)
Lemma dec_cut pos m k : map_ok m -> k < length (enc_obj pos m) ->
  dec_obj (firstn k (enc_obj pos m)) = None.
Proof.
  intros Hm Hk. unfold dec_obj.
  destruct (rd_fields _ None None (firstn k (enc_obj pos m))) as [[[x y] r]|] eqn:E;
    [|reflexivity].
  exfalso.
  assert (Ld : length (firstn k (enc_obj pos m)) = k)
    by (rewrite firstn_length; lia).
  assert (Hle : S (length (firstn k (enc_obj pos m)))
                <= S (S (S (length (enc_obj pos m))))) by (rewrite Ld; lia).
  pose proof (rd_fields_app _ (S (S (S (length (enc_obj pos m))))) _ _ _ _ _ _
                (skipn k (enc_obj pos m)) Hle E) as R.
  rewrite firstn_skipn in R.
  pose proof (rd_fields_enc pos m [] (length (enc_obj pos m)) Hm) as R2.
  rewrite app_nil_r in R2. rewrite R2 in R. inversion R as [[H0 H1 H2]]. try rewrite <- H1 in H2.
  symmetry in H2. apply app_eq_nil in H2 as [_ H2].
  apply (f_equal (@length _)) in H2. rewrite skipn_length in H2. cbn [length] in H2. unfold byte in *. lia.
Qed.

(** ** Association lists *)

Lemma bytes_eqb_false a b : bytes_eqb a b = false <-> a <> b.
Proof.
  split; intros E.
  - intros ->. rewrite bytes_eqb_refl in E. discriminate.
  - destruct (bytes_eqb a b) eqn:X; [|reflexivity].
    apply bytes_eqb_spec in X. contradiction.
Qed.

Lemma bytes_eq_dec (a b : name) : {a = b} + {a <> b}.
Proof.
  destruct (bytes_eqb a b) eqn:X.
  - left. apply bytes_eqb_spec, X.
  - right. apply bytes_eqb_false, X.
Qed.

Lemma afind_filter_in {V} (l : list (name * V)) f n v :
  afind (filter f l) n = Some v -> exists v', afind l n = Some v'.
Proof.
  induction l as [|[k x] l IH]; cbn [filter afind]; [discriminate|].
  destruct (f (k, x)); cbn [afind].
  - destruct (bytes_eqb k n); [intros; eexists; reflexivity | exact IH].
  - destruct (bytes_eqb k n); [intros; eexists; reflexivity | exact IH].
Qed.

Lemma afind_aerase_same {V} (l : list (name * V)) n : afind (aerase l n) n = None.
Proof.
  induction l as [|[k x] l IH]; cbn [aerase filter afind fst]; [reflexivity|].
  destruct (bytes_eqb k n) eqn:E; cbn [negb afind]; [exact IH|].
  rewrite E. exact IH.
Qed.

Lemma afind_aerase_other {V} (l : list (name * V)) n m : m <> n ->
  afind (aerase l n) m = afind l m.
Proof.
  intros Hm. induction l as [|[k x] l IH]; cbn [aerase filter afind fst]; [reflexivity|].
  destruct (bytes_eqb k n) eqn:E; cbn [negb afind].
  - apply bytes_eqb_spec in E. subst k.
    assert (X : bytes_eqb n m = false) by (apply bytes_eqb_false; congruence).
    rewrite X. exact IH.
  - destruct (bytes_eqb k m); [reflexivity | exact IH].
Qed.

Lemma afind_app {V} (l r : list (name * V)) n :
  afind (l ++ r) n = match afind l n with Some v => Some v | None => afind r n end.
Proof.
  induction l as [|[k x] l IH]; cbn [app afind]; [reflexivity|].
  destruct (bytes_eqb k n); [reflexivity | exact IH].
Qed.

Lemma afind_attached q n v : afind (attached q) n = Some v ->
  exists s, afind (segs q) n = Some s.
Proof.
  unfold attached. generalize (names q) as l. induction l as [|[k x] l IH];
    cbn [filter afind fst]; [discriminate|].
  destruct (afind (segs q) k) as [s|] eqn:E; cbn [afind]; [|exact IH].
  destruct (bytes_eqb k n) eqn:B; [|exact IH].
  intros _. apply bytes_eqb_spec in B. subst k. exists s. exact E.
Qed.

Lemma map_ok_filter f m : map_ok m -> map_ok (filter f m).
Proof.
  intros [L F]. split.
  - assert (X : length (filter f m) <= length m).
    { clear. induction m as [|a m IH]; cbn [filter length]; [lia|].
      destruct (f a); cbn [length]; lia. }
    unfold kNameMax in *. lia.
  - apply Forall_forall. intros kv Hin. apply filter_In in Hin as [Hin _].
    rewrite Forall_forall in F. apply F, Hin.
Qed.

Lemma map_ok_nil : map_ok [].
Proof. split; [unfold kNameMax; cbn; lia | constructor]. Qed.

(** ** Kernel names *)

Lemma updB_cases f n o v n' o' x : updB f n o v n' o' = x ->
  (n' = n /\ o' = o /\ v = x) \/ ((n' <> n \/ o' <> o) /\ f n' o' = x).
Proof.
  unfold updB. destruct (bytes_eqb n' n) eqn:E; cbn [andb].
  - apply bytes_eqb_spec in E. destruct (Bool.eqb o' o) eqn:F.
    + apply Bool.eqb_prop in F. intros; left; auto.
    + intros; right; split; auto. right. intros ->. rewrite Bool.eqb_reflx in F.
      discriminate.
  - apply bytes_eqb_false in E. intros; right; auto.
Qed.

(** Unlinking only removes bindings. *)
Definition shrinks (b b' : name -> bool -> option nat) : Prop :=
  forall n o x, b' n o = Some x -> b n o = Some x.

Lemma shrinks_refl b : shrinks b b.
Proof. intros n o x E. exact E. Qed.

Lemma shrinks_trans a b c : shrinks a b -> shrinks b c -> shrinks a c.
Proof. intros X Y n o x E. apply X, Y, E. Qed.

Lemma shrinks_unlinkId b n o : shrinks b (unlinkId b n o).
Proof.
  intros n' o' x E. apply updB_cases in E as [(-> & -> & E) | [_ E]];
    [discriminate | exact E].
Qed.

Lemma shrinks_unlinkAny b leg n : shrinks b (unlinkAny b leg n).
Proof.
  unfold unlinkAny. destruct leg; [apply shrinks_unlinkId|].
  destruct (b n false); apply shrinks_unlinkId.
Qed.

Lemma shrinks_unlinkAll leg l : forall b, shrinks b (unlinkAll b leg l).
Proof.
  induction l as [|[n k] l IH]; intros b; cbn [unlinkAll]; [apply shrinks_refl|].
  eapply shrinks_trans; [apply shrinks_unlinkAny | apply IH].
Qed.

Lemma updN_same {V} (f : nat -> V) i v : updN f i v i = v.
Proof. unfold updN. rewrite Nat.eqb_refl. reflexivity. Qed.
Lemma updN_other {V} (f : nat -> V) i j v : j <> i -> updN f i v j = f j.
Proof. intros. unfold updN. destruct (Nat.eqb_spec j i); congruence. Qed.

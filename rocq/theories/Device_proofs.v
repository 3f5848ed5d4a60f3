From Coq Require Import List NArith Lia Bool.
Import ListNotations.
From Verif Require Import Device_model Device_spec.
Local Open Scope N_scope.

Section Dev.
Variable g : cfg.
Hypothesis V : valid g.

Definition L (fs : files) (o : N) : byte := fs (fst (place g o)) (snd (place g o)).

Lemma striped_inj nf s o1 o2 : 0 < nf -> 0 < s ->
  (o1 / s) mod nf = (o2 / s) mod nf ->
  o1 / s / nf * s + o1 mod s = o2 / s / nf * s + o2 mod s -> o1 = o2.
Proof.
  intros Hn Hs E1 E2.
  pose proof (N.mod_upper_bound o1 s ltac:(lia)) as U1. pose proof (N.mod_upper_bound o2 s ltac:(lia)) as U2.
  assert (A : o1 / s / nf = o2 / s / nf /\ o1 mod s = o2 mod s).
  { rewrite (N.mul_comm _ s), (N.mul_comm (o2 / s / nf) s) in E2.
    exact (N.div_mod_unique _ _ _ _ _ U1 U2 E2). }
  destruct A as [A1 A2].
  assert (Q : o1 / s = o2 / s).
  { rewrite (N.div_mod (o1 / s) nf), (N.div_mod (o2 / s) nf) by lia. now rewrite A1, E1. }
  rewrite (N.div_mod o1 s), (N.div_mod o2 s) by lia. now rewrite Q, A2.
Qed.

Lemma place_inj o1 o2 : place g o1 = place g o2 -> o1 = o2.
Proof.
  unfold place. destruct V as (_ & Hn & _ & _ & _ & _ & _ & Hs).
  destruct (N.ltb_spec 1 (numFiles g)) as [H|H].
  - intro E. apply pair_equal_spec in E. destruct E as [E1 E2].
    destruct (Hs H) as [Hs0 _]. eapply striped_inj; [exact Hn|exact Hs0|exact E1|exact E2].
  - intro E. now apply pair_equal_spec in E.
Qed.

Lemma same_stripe s o j : 0 < s -> o mod s + j < s -> (o + j) / s = o / s /\ (o + j) mod s = o mod s + j.
Proof.
  intros Hs H. pose proof (N.div_mod o s ltac:(lia)) as E.
  assert (Q : o + j = s * (o / s) + (o mod s + j)) by lia.
  split; symmetry; [eapply N.div_unique|eapply N.mod_unique]; eauto.
Qed.

Definition good_op (lo : N) (o : ioop) : Prop := forall j, j < osize o -> place g (lo + j) = (fd o, fofs o + j).

Inductive tiles : list ioop -> N -> N -> N -> Prop :=
| t_nil off pos : tiles [] off 0 pos
| t_cons o l off size pos :
    good_op off o -> opos o = pos -> osize o <= size ->
    tiles l (off + osize o) (size - osize o) (pos + osize o) -> tiles (o :: l) off size pos.

Lemma split_tiles fuel off size pos l :
  1 < numFiles g -> split_stripes fuel (numFiles g) (stripeSize g) off size pos = Some l -> tiles l off size pos.
Proof.
  intros Hn. destruct V as (_ & _ & Hn32 & _ & _ & _ & _ & Hs). destruct (Hs Hn) as [Hs0 Hs32]. clear Hs.
  revert off size pos l. induction fuel as [|f IH]; intros off size pos l H; cbn [split_stripes] in H.
  - destruct (N.eqb_spec size 0); inversion H; subst. constructor.
  - destruct (N.eqb_spec size 0); [inversion H; subst; constructor|].
    pose proof (N.mod_upper_bound off (stripeSize g) ltac:(lia)) as U1.
    pose proof (N.mod_upper_bound (off / stripeSize g) (numFiles g) ltac:(lia)) as U2.
    rewrite (N.mod_small ((off / stripeSize g) mod numFiles g)) in H by lia.
    rewrite (N.mod_small (off mod stripeSize g)) in H by lia.
    destruct (split_stripes f _ _ _ _ _) as [r|] eqn:E; [|discriminate]. inversion H; subst; clear H.
    constructor; cbn [fd fofs osize opos]; auto; try lia.
    intros j Hj. cbn [osize fd fofs] in *.
    destruct (same_stripe (stripeSize g) off j Hs0 ltac:(lia)) as [E1 E2].
    unfold place. destruct (N.ltb_spec 1 (numFiles g)); [|lia]. rewrite E1, E2. f_equal. lia.
Qed.

Lemma split_some fuel off size pos :
  1 < numFiles g -> (N.to_nat size < fuel)%nat ->
  exists l, split_stripes fuel (numFiles g) (stripeSize g) off size pos = Some l.
Proof.
  intros Hn. destruct V as (_ & _ & Hn32 & _ & _ & _ & _ & Hs). destruct (Hs Hn) as [Hs0 Hs32]. clear Hs.
  revert off size pos. induction fuel as [|f IH]; intros off size pos Hf; [lia|]. cbn [split_stripes].
  destruct (N.eqb_spec size 0); [eauto|].
  pose proof (N.mod_upper_bound off (stripeSize g) ltac:(lia)) as U1.
  rewrite (N.mod_small (off mod stripeSize g)) by lia.
  destruct (IH (off + N.min size (stripeSize g - off mod stripeSize g)) (size - N.min size (stripeSize g - off mod stripeSize g))
               (pos + N.min size (stripeSize g - off mod stripeSize g))) as [r ->]; [lia|eauto].
Qed.

Lemma req_tiles off size pos l : io_req g off size pos = Some l -> tiles l off size pos.
Proof.
  unfold io_req. destruct (N.ltb_spec 1 (numFiles g)) as [H|H]; intro E.
  - eapply split_tiles; eauto.
  - inversion E; subst. constructor; cbn [osize opos]; auto; try lia.
    + intros j _. unfold place. destruct (N.ltb_spec 1 (numFiles g)); [lia|]. reflexivity.
    + rewrite N.sub_diag. constructor.
Qed.
Lemma req_some off size pos : exists l, io_req g off size pos = Some l.
Proof.
  unfold io_req. destruct (N.ltb_spec 1 (numFiles g)) as [H|H]; [|eauto]. apply split_some; auto.
Qed.

(** ** One operation, seen logically *)
Lemma in_op_place lo op o : good_op lo op ->
  in_op op (fst (place g o)) (snd (place g o)) = ((lo <=? o) && (o <? lo + osize op)).
Proof.
  intro G. unfold in_op.
  destruct (N.leb_spec lo o) as [H1|H1]; cbn [andb].
  - destruct (N.ltb_spec o (lo + osize op)) as [H2|H2].
    + specialize (G (o - lo) ltac:(lia)). replace (lo + (o - lo)) with o in G by lia. rewrite G. cbn [fst snd].
      rewrite N.eqb_refl. destruct (N.leb_spec (fofs op) (fofs op + (o - lo))); [|lia].
      destruct (N.ltb_spec (fofs op + (o - lo)) (fofs op + osize op)); [auto|lia].
    + destruct (N.eqb_spec (fst (place g o)) (fd op)) as [E|]; auto.
      destruct (N.leb_spec (fofs op) (snd (place g o))); auto.
      destruct (N.ltb_spec (snd (place g o)) (fofs op + osize op)); auto. exfalso.
      specialize (G (snd (place g o) - fofs op) ltac:(lia)).
      rewrite <- E in G. replace (fofs op + (snd (place g o) - fofs op)) with (snd (place g o)) in G by lia.
      rewrite <- surjective_pairing in G. apply place_inj in G. lia.
  - destruct (N.eqb_spec (fst (place g o)) (fd op)) as [E|]; auto.
    destruct (N.leb_spec (fofs op) (snd (place g o))); auto.
    destruct (N.ltb_spec (snd (place g o)) (fofs op + osize op)); auto. exfalso.
    specialize (G (snd (place g o) - fofs op) ltac:(lia)).
    rewrite <- E in G. replace (fofs op + (snd (place g o) - fofs op)) with (snd (place g o)) in G by lia.
    rewrite <- surjective_pairing in G. apply place_inj in G. lia.
Qed.

Lemma write_ops_L l off size pos : tiles l off size pos -> forall fs data ft fs' ok,
  write_ops fs data l ft = (fs', ok) ->
  (forall o, ~ (off <= o < off + size) -> L fs' o = L fs o) /\
  (ok = true -> forall o, off <= o < off + size -> L fs' o = nth (N.to_nat (pos + (o - off))) data 0).
Proof.
  induction 1 as [|op l off size pos G Hp Hs T IH]; intros fs data ft fs' ok H; cbn [write_ops] in H.
  - inversion H; subst. split; auto. intros; lia.
  - destruct (write_ops (write_op fs data op (ft O)) data l _) as [fs1 ok1] eqn:E. inversion H; subst fs' ok; clear H.
    destruct (IH _ _ _ _ _ E) as [I1 I2].
    assert (W : forall o, L (write_op fs data op (ft O)) o =
       if (off <=? o) && (o <? off + osize op)
       then match ft O with None => nth (N.to_nat (opos op + (snd (place g o) - fofs op))) data 0
                          | Some gg => gg (fst (place g o)) (snd (place g o)) end
       else L fs o).
    { intro o. unfold L, write_op. rewrite (in_op_place off) by auto. reflexivity. }
    split.
    + intros o Ho. rewrite I1 by lia. rewrite W.
      destruct (N.leb_spec off o); cbn [andb]; auto. destruct (N.ltb_spec o (off + osize op)); auto. lia.
    + destruct (ft O) eqn:F; [discriminate|]. intros -> o Ho.
      destruct (N.lt_ge_cases o (off + osize op)) as [Hlt|Hge].
      * rewrite I1 by lia. rewrite W. destruct (N.leb_spec off o); [|lia].
        destruct (N.ltb_spec o (off + osize op)); [|lia]. cbn [andb].
        specialize (G (o - off) ltac:(lia)). replace (off + (o - off)) with o in G by lia. rewrite G. cbn [snd].
        f_equal. lia.
      * rewrite I2 by (auto; lia). f_equal. lia.
Qed.

Lemma read_ops_L l off size pos : tiles l off size pos -> forall fs buf ft b',
  read_ops fs buf l ft = (b', true) ->
  (forall p, ~ (pos <= p < pos + size) -> b' p = buf p) /\
  (forall p, pos <= p < pos + size -> b' p = L fs (off + (p - pos))).
Proof.
  induction 1 as [|op l off size pos G Hp Hs T IH]; intros fs buf ft b' H; cbn [read_ops] in H.
  - inversion H; subst. split; auto. intros; lia.
  - destruct (read_ops fs (read_op fs buf op (ft O)) l _) as [b1 ok1] eqn:E. inversion H; subst b1; clear H.
    destruct (ft O) eqn:F; [discriminate|]. subst ok1. destruct (IH _ _ _ _ E) as [I1 I2].
    split; intros p Hpp.
    + rewrite I1 by lia. unfold read_op. rewrite Hp.
      destruct (N.leb_spec pos p); cbn [andb]; auto. destruct (N.ltb_spec p (pos + osize op)); auto. lia.
    + destruct (N.lt_ge_cases p (pos + osize op)) as [Hlt|Hge].
      * rewrite I1 by lia. unfold read_op. rewrite Hp.
        destruct (N.leb_spec pos p); [|lia]. destruct (N.ltb_spec p (pos + osize op)); [|lia]. cbn [andb].
        specialize (G (p - pos) ltac:(lia)). unfold L. rewrite G. reflexivity.
      * rewrite I2 by lia. f_equal. lia.
Qed.

Lemma read_ops_ok l off size pos fs buf ft : tiles l off size pos -> (forall i, ft i = None) ->
  snd (read_ops fs buf l ft) = true.
Proof.
  intro T. revert fs buf ft. induction T as [|op l off size pos G Hp Hs T IH]; intros fs buf ft F; cbn [read_ops]; auto.
  specialize (IH fs (read_op fs buf op (ft O)) (fun i => ft (S i)) (fun i => F (S i))).
  destruct (read_ops fs (read_op fs buf op (ft O)) l _). cbn [snd] in *. now rewrite F.
Qed.

(** ** Chunk loops *)
Lemma write_chunks_L fuel : forall c fs data maxW off pos rem ft r,
  0 < maxW -> rem < U32 ->
  write_chunks g fuel c fs data maxW off pos rem ft = Some r ->
  (forall o, ~ (off <= o < off + rem) -> L (fst r) o = L fs o) /\
  (snd r = true -> forall o, off <= o < off + rem -> L (fst r) o = nth (N.to_nat (pos + (o - off))) data 0).
Proof.
  induction fuel as [|f IH]; intros c fs data maxW off pos rem ft r HM HR H; cbn [write_chunks] in H.
  - destruct (N.eqb_spec rem 0); inversion H; subst. split; auto. intros; lia.
  - destruct (N.eqb_spec rem 0); [inversion H; subst; split; auto; intros; lia|].
    rewrite N.mod_small in H by lia. set (ws := N.min maxW rem) in *.
    destruct (io_req g off ws pos) as [l|] eqn:E; [|discriminate]. apply req_tiles in E.
    destruct (write_ops fs data l (ft c)) as [fs1 ok] eqn:W. destruct (write_ops_L _ _ _ _ E _ _ _ _ _ W) as [W1 W2].
    destruct ok.
    + assert (HR' : rem - ws < U32) by lia. destruct (IH _ _ _ _ _ _ _ _ _ HM HR' H) as [I1 I2]. split.
      * intros o Ho. rewrite I1 by lia. apply W1. lia.
      * intros Hr o Ho. destruct (N.lt_ge_cases o (off + ws)).
        -- rewrite I1 by lia. rewrite W2 by (auto; lia). auto.
        -- rewrite I2 by (auto; lia). f_equal. lia.
    + inversion H; subst. cbn [fst snd]. split; [|discriminate]. intros o Ho. apply W1. lia.
Qed.

Lemma read_chunks_L fuel : forall c fs buf maxR off pos rem ft b,
  0 < maxR -> rem < U32 ->
  read_chunks g fuel c fs buf maxR off pos rem ft = Some (b, true) ->
  (forall p, ~ (pos <= p < pos + rem) -> b p = buf p) /\
  (forall p, pos <= p < pos + rem -> b p = L fs (off + (p - pos))).
Proof.
  induction fuel as [|f IH]; intros c fs buf maxR off pos rem ft b HM HR H; cbn [read_chunks] in H.
  - destruct (N.eqb_spec rem 0); inversion H; subst. split; auto. intros; lia.
  - destruct (N.eqb_spec rem 0); [inversion H; subst; split; auto; intros; lia|].
    rewrite N.mod_small in H by lia. set (ws := N.min maxR rem) in *.
    destruct (io_req g off ws pos) as [l|] eqn:E; [|discriminate]. apply req_tiles in E.
    destruct (read_ops fs buf l (ft c)) as [b1 ok] eqn:W. destruct ok; [|discriminate].
    destruct (read_ops_L _ _ _ _ E _ _ _ _ W) as [W1 W2].
    assert (HR' : rem - ws < U32) by lia. destruct (IH _ _ _ _ _ _ _ _ _ HM HR' H) as [I1 I2]. split; intros p Hp.
    + rewrite I1 by lia. apply W1. lia.
    + destruct (N.lt_ge_cases p (pos + ws)).
      * rewrite I1 by lia. apply W2. lia.
      * rewrite I2 by lia. f_equal. lia.
Qed.

Lemma write_chunks_some fuel : forall c fs data maxW off pos rem ft,
  0 < maxW -> (N.to_nat rem < fuel)%nat -> exists r, write_chunks g fuel c fs data maxW off pos rem ft = Some r.
Proof.
  induction fuel as [|f IH]; intros c fs data maxW off pos rem ft HM Hf; [lia|]. cbn [write_chunks].
  destruct (N.eqb_spec rem 0); [eauto|].
  destruct (req_some off (N.min maxW rem mod U32) pos) as [l ->].
  destruct (write_ops fs data l (ft c)) as [fs1 []]; [|eauto]. apply IH; auto. lia.
Qed.
Lemma read_chunks_some fuel : forall c fs buf maxR off pos rem ft,
  0 < maxR -> (N.to_nat rem < fuel)%nat ->
  exists b ok, read_chunks g fuel c fs buf maxR off pos rem ft = Some (b, ok) /\ ((forall i j, ft i j = None) -> ok = true).
Proof.
  induction fuel as [|f IH]; intros c fs buf maxR off pos rem ft HM Hf; [lia|]. cbn [read_chunks].
  destruct (N.eqb_spec rem 0); [eauto|].
  destruct (req_some off (N.min maxR rem mod U32) pos) as [l E]. rewrite E. apply req_tiles in E.
  pose proof (read_ops_ok _ _ _ _ fs buf (ft c) E) as K.
  destruct (read_ops fs buf l (ft c)) as [b1 []]; [apply IH; auto; lia|].
  exists b1, false. split; [reflexivity|]. intro F. apply (K (F c)).
Qed.

Lemma writeInternal_L fs off data ft r : N.of_nat (length data) < U32 ->
  writeInternal g fs off data ft = Some r ->
  (forall o, ~ (off <= o < off + N.of_nat (length data)) -> L (fst r) o = L fs o) /\
  (snd r = true -> forall o, off <= o < off + N.of_nat (length data) -> L (fst r) o = nth (N.to_nat (o - off)) data 0).
Proof.
  unfold writeInternal. intros H1 H2. set (n := N.of_nat (length data)) in *.
  destruct (N.eq_dec n 0) as [Z|Z].
  - rewrite Z in *. cbn in H2. inversion H2; subst. split; auto. intros; lia.
  - assert (0 < (if maxWriteSize g =? 0 then n else maxWriteSize g)) by (destruct (N.eqb_spec (maxWriteSize g) 0); lia).
    destruct (write_chunks_L _ _ _ _ _ _ _ _ _ _ H H1 H2) as [A B]. split; auto.
Qed.
Lemma writeInternal_some fs off data ft : exists r, writeInternal g fs off data ft = Some r.
Proof.
  unfold writeInternal. destruct (N.eq_dec (N.of_nat (length data)) 0) as [Z|Z].
  - rewrite Z. cbn. eauto.
  - apply write_chunks_some; [|lia]. destruct (N.eqb_spec (maxWriteSize g) 0); lia.
Qed.

Lemma bytes_of_length b n : length (bytes_of b n) = N.to_nat n.
Proof. unfold bytes_of. now rewrite map_length, seq_length. Qed.
Lemma bytes_of_nth b n i d : (i < N.to_nat n)%nat -> nth i (bytes_of b n) d = b (N.of_nat i).
Proof.
  intro H. unfold bytes_of. rewrite (nth_indep _ d (b (N.of_nat 0))) by (rewrite map_length, seq_length; auto).
  rewrite (map_nth (fun i => b (N.of_nat i))), seq_nth by auto. f_equal.
Qed.

Definition Lbytes (fs : files) (off n : N) : list byte := bytes_of (fun i => L fs (off + i)) n.

Lemma list_ext (a b : list byte) : length a = length b -> (forall i, (i < length a)%nat -> nth i a 0 = nth i b 0) -> a = b.
Proof. intros Hl H. apply (nth_ext _ _ 0 0); auto. Qed.

Lemma readInternal_L fs off size ft r : size < U32 -> readInternal g fs off size ft = Some (Some r) ->
  match enc g with None => r = Lbytes fs off size | Some e => decrypt e (Lbytes fs off size) off = Some r end.
Proof.
  unfold readInternal. intros HS H.
  destruct (read_chunks g _ 0 fs _ _ off 0 size ft) as [[b []]|] eqn:E; try discriminate.
  assert (Q : bytes_of b size = Lbytes fs off size).
  { destruct (N.eq_dec size 0) as [->|Z]; [reflexivity|].
    assert (M : 0 < (if maxIOSize g =? 0 then size else maxIOSize g)) by (destruct (N.eqb_spec (maxIOSize g) 0); lia).
    destruct (read_chunks_L _ _ _ _ _ _ _ _ _ _ M HS E) as [_ B].
    apply list_ext; [unfold Lbytes; now rewrite !bytes_of_length|]. intros i Hi. rewrite bytes_of_length in Hi.
    unfold Lbytes. rewrite !bytes_of_nth by auto. rewrite B by lia. f_equal. lia. }
  rewrite Q in H. destruct (enc g); [congruence|]. now inversion H.
Qed.
Lemma readInternal_some fs off size ft : exists r, readInternal g fs off size ft = Some r /\
  ((forall i j, ft i j = None) -> enc g = None -> r <> None).
Proof.
  unfold readInternal.
  assert (X : exists b ok, read_chunks g (S (N.to_nat size)) 0 fs (fun _ => 0)
     (if maxIOSize g =? 0 then size else maxIOSize g) off 0 size ft = Some (b, ok) /\ ((forall i j, ft i j = None) -> ok = true)).
  { destruct (N.eq_dec size 0) as [->|Z]; [cbn; eauto|].
    apply read_chunks_some; [|lia]. destruct (N.eqb_spec (maxIOSize g) 0); lia. }
  destruct X as (b & ok & -> & K). destruct ok.
  - destruct (enc g); eexists; split; eauto; congruence.
  - eexists; split; eauto. intros F _. specialize (K F). discriminate.
Qed.
End Dev.

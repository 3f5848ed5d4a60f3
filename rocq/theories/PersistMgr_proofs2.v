(** Restoring what was saved. *)
From Coq Require Import List Arith ZArith Bool Lia.
Import ListNotations.
From Verif Require Import PersistMgr_model PersistMgr_spec PersistMgr_proofs1.
Open Scope Z_scope.

Definition okB (L : lib) (m : medium) (t n : nat) (d : list Z) : bool :=
  forallb (fun j => crc L (m t j (chunk L j d)) =? crc L (chunk L j d)) (seq 0 n).
Definition okSeg L m t d := okB L m t (ceil L (Z.of_nat (length d))) d.

Lemma thru_len : forall L m t n d, keepsLength m -> length (thru L m t n d) = length (flat_map (fun j => chunk L j d) (seq 0 n)).
Proof. intros. unfold thru. apply flat_len. intros. apply H. Qed.

Lemma blocksOf_rb : forall L m t n d x bound, goodLib L -> keepsLength m ->
  (forall b, bound = Some b -> Z.of_nat (length d) <= b) ->
  rblocks L bound n (blocksOf L (m t) n d ++ x) [] = if okB L m t n d then BOk (thru L m t n d) x else BFail.
Proof.
  intros L m t n d x bound G K HB. unfold blocksOf. rewrite (rblocks_good L G (m t) d x bound n 0 []).
  - reflexivity.
  - intros. apply K.
  - intros b E. rewrite chunks_app. simpl. specialize (HB b E). rewrite firstn_length. lia.
Qed.

Lemma section_seg : forall L m nf r t d x, goodLib L -> keepsLength m -> sized L d -> In t [3;4;5;6]%nat -> hasSeg r t = false ->
  section L nf r t (Z.of_nat (length d)) (blocksOf L (m t) (Z.to_nat (blocks64 L (Z.of_nat (length d)))) d ++ x) =
  if okSeg L m t d then SOk (mkR (rNvm r) (rSegs r ++ [(t, thru L m t (ceil L (Z.of_nat (length d))) d)]) (rNavy r)) x else SFail.
Proof.
  intros L m nf r t d x G K [S1 S2] Ht Hs.
  destruct (blocks64_ok L (Z.of_nat (length d)) G ltac:(lia)) as [E _]. rewrite E, Nat2Z.id.
  assert (Hl : length (thru L m t (ceil L (Z.of_nat (length d))) d) = length d).
  { rewrite thru_len by auto. rewrite chunks_all; auto. }
  assert (X : (if (Z.of_nat (length d) <=? 0) || hasSeg r t then SFail
    else match rblocks L (Some (Z.of_nat (length d))) (Z.to_nat (blocks64 L (Z.of_nat (length d)))) (blocksOf L (m t) (ceil L (Z.of_nat (length d))) d ++ x) [] with
         | BFail => SFail
         | BUB => SUB
         | BOk d0 s => SOk (mkR (rNvm r) (rSegs r ++ [(t, d0 ++ repeat 0 (Z.to_nat (Z.of_nat (length d)) - length d0))]) (rNavy r)) s
         end) =
    if okSeg L m t d then SOk (mkR (rNvm r) (rSegs r ++ [(t, thru L m t (ceil L (Z.of_nat (length d))) d)]) (rNavy r)) x else SFail).
  { rewrite Hs. destruct (Z.leb_spec (Z.of_nat (length d)) 0); [lia|]. cbn [orb].
    rewrite E, Nat2Z.id. rewrite blocksOf_rb; auto.
    - unfold okSeg. destruct (okB L m t (ceil L (Z.of_nat (length d))) d); [|reflexivity].
      rewrite Hl, Nat2Z.id, Nat.sub_diag. simpl. rewrite app_nil_r. reflexivity.
    - intros b Q. injection Q as <-. lia. }
  destruct Ht as [<-|[<-|[<-|[<-|[]]]]]; exact X.
Qed.

Definition navyBytes (L : lib) (m : medium) (n i : nat) (fs : list (list Z)) : list Z :=
  flat_map (fun p => blocksOf L (m (7 + fst p)%nat) n (snd p)) (combine (seq i (length fs)) fs).

Lemma rfiles_good : forall L m n x, goodLib L -> keepsLength m -> forall fs i acc,
  rfiles L (length fs) n (navyBytes L m n i fs ++ x) acc =
  if forallb (fun p => okB L m (7 + fst p) n (snd p)) (combine (seq i (length fs)) fs)
  then Some (Some (acc ++ map (fun p => thru L m (7 + fst p) n (snd p)) (combine (seq i (length fs)) fs), x)) else Some None.
Proof.
  intros L m n x G K fs. induction fs as [|f fs IH]; intros i acc.
  { cbn. rewrite app_nil_r. reflexivity. }
  unfold navyBytes. cbn [length seq combine flat_map rfiles fst snd forallb map].
  rewrite <- app_assoc, blocksOf_rb; auto; [|discriminate].
  destruct (okB L m (7 + i) n f); [|reflexivity]. cbn [andb].
  fold (navyBytes L m n (S i) fs). rewrite IH.
  destruct (forallb _ _); [|reflexivity]. rewrite <- app_assoc. reflexivity.
Qed.

Definition okNavy L m c := forallb (fun p => okB L m (7 + fst p) (ceil L (navySize c)) (snd p)) (combine (seq 0 (length (navy c))) (navy c)).
Definition okAll L m c := okSeg L m 3 (info c) && (okSeg L m 4 (ht c) && (okSeg L m 5 (cht c) && (okSeg L m 6 (data c) && okNavy L m c))).

Lemma rloop_step : forall L nf f r t len body mk x, goodLib L -> (t <= 7)%nat -> 0 <= len < 2 ^ 63 ->
  rloop L nf (S f) (hlen L) r (encH L t len ++ body ++ mk :: x) =
  match section L nf r t len (body ++ mk :: x) with
  | SFail => RFail | SUB => RUB | SOk r [] => RFail
  | SOk r (m :: s) => if m =? 30 then rloop L nf f (hlen L) r s else if m =? 31 then ROk r s else RFail
  end.
Proof.
  intros L nf f r t len body mk x G Ht Hl. cbn [rloop].
  destruct (Nat.ltb_spec (length (encH L t len ++ body ++ mk :: x)) (hlen L)) as [E|_].
  { rewrite app_length, (gE L G) in E. lia. }
  rewrite firstn_app_l by apply (gE L G). rewrite (gD L G) by auto. rewrite skipn_app_l by apply (gE L G). reflexivity.
Qed.

Lemma getBuf_app : forall b x, getBuf (Z.of_nat (length b)) (b ++ x) = Some (b, x).
Proof.
  intros. unfold getBuf. destruct (Z.ltb_spec (Z.of_nat (length b)) 0); [lia|].
  destruct (Z.ltb_spec (Z.of_nat (length (b ++ x))) (Z.of_nat (length b))) as [E|_]; [rewrite app_length in E; lia|].
  cbn [orb]. rewrite Nat2Z.id, firstn_app_l, skipn_app_l; auto.
Qed.

(** everything in front of the navy files *)
Definition okSegs L m c := okSeg L m 3 (info c) && (okSeg L m 4 (ht c) && (okSeg L m 5 (cht c) && okSeg L m 6 (data c))).
Definition upto7 (L : lib) (m : medium) (old : option (list Z)) (c : cache) : restored :=
  mkR (rNvm (arrived L m old c)) (rSegs (arrived L m old c)) None.
Lemma restore_pre : forall L m old c s x nf, goodLib L -> goodCache L c -> keepsLength m ->
  saveVia L m c = Some s ->
  exists f, restore L old nf (s ++ x) =
    if okSegs L m c then rloop L nf (S f) (hlen L) (upto7 L m old c)
      (encH L 7 (navySize c) ++ navyBytes L m (iters (blocks64 L (navySize c))) 0 (navy c) ++ 31 :: x) else RFail.
Proof.
  intros L m old c s x nf G [[S1 [S2 [S3 S4]]] CM CN] K E.
  unfold saveVia in E. destruct (existsb _ _); [discriminate|]. apply f_equal with (f := fun o => match o with Some a => a | None => s end) in E. cbv beta iota in E. subst s.
  destruct (gL L G) as [L1 [L2 L3]]. destruct (gV L G) as [V1 V2]. destruct (gB L G) as [B0 B1].
  assert (BB : Z.of_nat (blk L) * (2 ^ 31 - 1) < 2 ^ 63) by (change (2^63) with (2^32 * 2^31); nia).
  assert (SZ : forall d, sized L d -> 0 <= Z.of_nat (length d) < 2 ^ 63) by (unfold sized; intros; lia).
  cbn [app]. rewrite <- !app_assoc. unfold restore. cbn [Z.eqb Pos.eqb negb].
  match goal with |- context [enc 8 _ ++ ?t] => set (tl := t) end.
  destruct (Nat.ltb_spec (length (enc 8 (Z.of_nat (hlen L)) ++ tl)) 8) as [Q|_]; [rewrite app_length, enc_len in Q; lia|].
  rewrite firstn_app_l, skipn_app_l by apply enc_len.
  rewrite (dec_enc 8) by (change (256 ^ Z.of_nat 8) with (2 ^ 64); lia).
  destruct (Z.ltb_spec (Z.of_nat (length tl)) (Z.of_nat (hlen L))) as [Q|_].
  { unfold tl in Q. rewrite app_length, (gE L G) in Q. lia. }
  rewrite Nat2Z.id.
  unfold tl, secShm, secNavy. fold (navyBytes L m (iters (blocks64 L (navySize c))) 0 (navy c)).
  repeat (cbn [app]; rewrite <- !app_assoc). cbn [app].
  match goal with |- context [S (length ?l)] => assert (exists f, S (length l) = S (S (S (S (S (S (S (S f)))))))) as [f ->] end.
  { rewrite !app_length. cbn [length]. rewrite !app_length. cbn [length]. rewrite !app_length. cbn [length].
    rewrite !app_length. cbn [length]. rewrite !app_length. cbn [length]. rewrite !app_length. cbn [length].
    rewrite !app_length. cbn [length]. rewrite !app_length. cbn [length].
    match goal with |- exists f, S ?k = _ => exists (k - 7)%nat; lia end. }
  rewrite rloop_step by (auto; lia). cbn [section]. rewrite getBuf_app, V1. cbn [Z.eqb Pos.eqb].
  rewrite rloop_step by (auto; lia). cbn [section]. rewrite getBuf_app, V2. cbn [Z.eqb Pos.eqb].
  rewrite rloop_step by (auto; lia). cbn [section]. rewrite getBuf_app. cbn [Z.eqb Pos.eqb rNvm rSegs rNavy].
  assert (I3 : In 3%nat [3;4;5;6]%nat) by (cbn; auto). assert (I4 : In 4%nat [3;4;5;6]%nat) by (cbn; auto).
  assert (I5 : In 5%nat [3;4;5;6]%nat) by (cbn; auto). assert (I6 : In 6%nat [3;4;5;6]%nat) by (cbn; auto).
  exists f. unfold okSegs.
  rewrite rloop_step by (auto; lia).
  rewrite (section_seg L m _ _ 3) by (auto; reflexivity).
  destruct (okSeg L m 3 (info c)); [|reflexivity]. cbn [andb Z.eqb Pos.eqb rNvm rSegs rNavy app].
  rewrite rloop_step by (auto; lia).
  rewrite (section_seg L m _ _ 4) by (auto; reflexivity).
  destruct (okSeg L m 4 (ht c)); [|reflexivity]. cbn [andb Z.eqb Pos.eqb rNvm rSegs rNavy app].
  rewrite rloop_step by (auto; lia).
  rewrite (section_seg L m _ _ 5) by (auto; reflexivity).
  destruct (okSeg L m 5 (cht c)); [|reflexivity]. cbn [andb Z.eqb Pos.eqb rNvm rSegs rNavy app].
  rewrite rloop_step by (auto; lia).
  rewrite (section_seg L m _ _ 6) by (auto; reflexivity).
  destruct (okSeg L m 6 (data c)); [|reflexivity]. cbn [andb Z.eqb Pos.eqb rNvm rSegs rNavy app].
  unfold upto7, arrived. destruct (nvmState c); reflexivity.
Qed.

Theorem restore_via : forall L m old c s x, goodLib L -> goodCache L c -> below4G L c -> keepsLength m ->
  saveVia L m c = Some s ->
  restore L old (length (navy c)) (s ++ x) = if okAll L m c then ROk (arrived L m old c) x else RFail.
Proof.
  intros L m old c s x G C F K E. destruct (restore_pre L m old c s x (length (navy c)) G C K E) as [f R]. rewrite R. clear R.
  destruct C as [_ _ CN]. destruct (gB L G) as [B0 B1].
  assert (BB : Z.of_nat (blk L) * (2 ^ 31 - 1) < 2 ^ 63) by (change (2^63) with (2^32 * 2^31); nia).
  assert (OA : okAll L m c = okSegs L m c && okNavy L m c) by (unfold okAll, okSegs; rewrite !andb_assoc; reflexivity).
  rewrite OA. destruct (okSegs L m c); [|reflexivity]. cbn [andb].
  rewrite rloop_step by (auto; lia). cbn [section].
  destruct (blocks64_ok L (navySize c) G CN) as [E64 C31]. rewrite E64.
  rewrite (blocks32_ok L (navySize c) G CN F). rewrite iters_small by exact C31.
  rewrite rfiles_good by auto. fold (okNavy L m c).
  destruct (okNavy L m c); reflexivity.
Qed.

Lemma save_some : forall L m c, goodCache L c -> exists s, saveVia L m c = Some s.
Proof.
  intros L m c [[S1 [S2 [S3 S4]]] _ _]. unfold saveVia, sized in *.
  destruct (info c); [cbn in S1; lia|]. destruct (ht c); [cbn in S2; lia|]. destruct (cht c); [cbn in S3; lia|].
  destruct (data c); [cbn in S4; lia|]. cbn [existsb orb]. eauto.
Qed.

Lemma arrived_exact : forall L old c, goodLib L -> arrived L exact old c = same L old c.
Proof.
  intros L old c G. unfold arrived, same, thru, exact. cbv zeta.
  rewrite !chunks_all by auto. f_equal. f_equal.
  transitivity (map (firstn (ceil L (navySize c) * blk L)) (map snd (combine (seq 0 (length (navy c))) (navy c)))).
  - rewrite map_map. apply map_ext. intros p. rewrite chunks_app. reflexivity.
  - f_equal. generalize 0%nat. induction (navy c); intros k; simpl; f_equal; auto.
Qed.

Lemma okAll_exact : forall L c, okAll L exact c = true.
Proof.
  intros. assert (X : forall t n d, okB L exact t n d = true).
  { intros. unfold okB, exact. apply forallb_forall. intros. apply Z.eqb_refl. }
  unfold okAll, okSeg, okNavy. rewrite !X. cbn [andb]. apply forallb_forall. intros. apply X.
Qed.

Theorem round_trip : forall L old c, goodLib L -> goodCache L c -> below4G L c ->
  exists s, save L c = Some s /\ forall x, restore L old (length (navy c)) (s ++ x) = ROk (same L old c) x.
Proof.
  intros L old c G C F. destruct (save_some L exact c C) as [s E]. exists s. split; [exact E|]. intros x.
  rewrite (restore_via L exact old c s x) by (auto; intros t j d; reflexivity). rewrite okAll_exact, arrived_exact; auto.
Qed.

Lemma okB_false : forall L m t n d, okB L m t n d = false -> exists j, (j < n)%nat /\ crc L (m t j (chunk L j d)) <> crc L (chunk L j d).
Proof.
  intros L m t n d H. unfold okB in H.
  assert (X : forall l, forallb (fun j => crc L (m t j (chunk L j d)) =? crc L (chunk L j d)) l = false -> exists j, In j l /\ crc L (m t j (chunk L j d)) <> crc L (chunk L j d)).
  { induction l; cbn; [discriminate|]. destruct (Z.eqb_spec (crc L (m t a (chunk L a d))) (crc L (chunk L a d))); cbn; intros; eauto.
    destruct (IHl H0) as [j [? ?]]. eauto. }
  destruct (X _ H) as [j [I N]]. apply in_seq in I. exists j. split; [lia|auto].
Qed.
Lemma okB_true : forall L m t n d j, okB L m t n d = true -> (j < n)%nat -> crc L (m t j (chunk L j d)) = crc L (chunk L j d).
Proof.
  intros L m t n d j H Hj. unfold okB in H. rewrite forallb_forall in H. apply Z.eqb_eq, H, in_seq. lia.
Qed.

Lemma combine_seq : forall (fs : list (list Z)) k i f, In (i, f) (combine (seq k (length fs)) fs) <-> (k <= i)%nat /\ nth_error fs (i - k) = Some f.
Proof.
  induction fs as [|g fs IH]; intros k i f; cbn.
  - split; [tauto|]. intros [_ H]. destruct (i - k)%nat; discriminate.
  - rewrite IH. split.
    + intros [E|[A B]].
      * injection E as -> ->. rewrite Nat.sub_diag. auto.
      * split; [lia|]. replace (i - k)%nat with (S (i - S k)) by lia. exact B.
    + intros [A B]. destruct (Nat.eq_dec i k) as [->|N].
      * rewrite Nat.sub_diag in B. left. cbn in B. congruence.
      * right. split; [lia|]. replace (i - k)%nat with (S (i - S k)) in B by lia. exact B.
Qed.

Lemma okAll_damaged : forall L m c, okAll L m c = false <-> damaged L m c.
Proof.
  intros L m c. split.
  - intros H. unfold okAll in H.
    assert (X : forall t d, okSeg L m t d = false -> In (t, d) [(3%nat, info c); (4%nat, ht c); (5%nat, cht c); (6%nat, data c)] -> damaged L m c).
    { intros t d Hs I. apply okB_false in Hs. destruct Hs as [j [? ?]]. left. exists t, d, j. auto. }
    destruct (okSeg L m 3 (info c)) eqn:E3; [|apply (X _ _ E3); cbn; auto].
    destruct (okSeg L m 4 (ht c)) eqn:E4; [|apply (X _ _ E4); cbn; auto].
    destruct (okSeg L m 5 (cht c)) eqn:E5; [|apply (X _ _ E5); cbn; auto].
    destruct (okSeg L m 6 (data c)) eqn:E6; [|apply (X _ _ E6); cbn; auto].
    cbn [andb] in H. right. unfold okNavy in H.
    assert (Y : forall l, forallb (fun p => okB L m (7 + fst p) (ceil L (navySize c)) (snd p)) l = false -> exists p, In p l /\ okB L m (7 + fst p) (ceil L (navySize c)) (snd p) = false).
    { induction l; cbn [forallb]; [discriminate|]. destruct (okB L m (7 + fst a) (ceil L (navySize c)) (snd a)) eqn:E; cbn [andb]; intros Q.
      - destruct (IHl Q) as [p [? ?]]. exists p. split; [right; auto|auto].
      - exists a. split; [left; auto|auto]. }
    destruct (Y _ H) as [[i f] [I O]]. apply combine_seq in I. rewrite Nat.sub_0_r in I. destruct I as [_ I].
    apply okB_false in O. destruct O as [j [? ?]]. exists i, f, j. auto.
  - intros H. destruct (okAll L m c) eqn:E; [|reflexivity]. exfalso. unfold okAll in E.
    rewrite !andb_true_iff in E. destruct E as [E3 [E4 [E5 [E6 EN]]]].
    destruct H as [[t [d [j [I [Hj N]]]]]|[i [f [j [I [Hj N]]]]]].
    + apply N. cbn in I. destruct I as [I|[I|[I|[I|[]]]]]; injection I as <- <-; eapply okB_true; eauto.
    + apply N. unfold okNavy in EN. rewrite forallb_forall in EN.
      refine (okB_true L m (7 + i) _ f j (EN (i, f) _) Hj). apply combine_seq. rewrite Nat.sub_0_r. split; [lia|auto].
Qed.

Theorem corruption : forall L m old c s, goodLib L -> goodCache L c -> below4G L c -> keepsLength m -> saveVia L m c = Some s ->
  (damaged L m c -> restore L old (length (navy c)) s = RFail) /\
  (~ damaged L m c -> restore L old (length (navy c)) s = ROk (arrived L m old c) []).
Proof.
  intros L m old c s G C F K E. pose proof (restore_via L m old c s [] G C F K E) as R. rewrite app_nil_r in R. rewrite R.
  split; intros D.
  - apply okAll_damaged in D. rewrite D. reflexivity.
  - destruct (okAll L m c) eqn:O; [reflexivity|]. apply okAll_damaged in O. tauto.
Qed.

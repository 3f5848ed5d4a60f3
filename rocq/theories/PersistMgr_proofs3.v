(** A stream that ends early. *)
From Coq Require Import List Arith ZArith Bool Lia.
Import ListNotations.
From Verif Require Import PersistMgr_model PersistMgr_spec PersistMgr_proofs1 PersistMgr_proofs2.
Open Scope Z_scope.

Lemma firstn_more {A} : forall n (a b : list A), (n <= length a)%nat -> firstn n (a ++ b) = firstn n a.
Proof. intros. rewrite firstn_app. replace (n - length a)%nat with 0%nat by lia. simpl. apply app_nil_r. Qed.
Lemma skipn_more {A} : forall n (a b : list A), (n <= length a)%nat -> skipn n (a ++ b) = skipn n a ++ b.
Proof. intros. rewrite skipn_app. replace (n - length a)%nat with 0%nat by lia. reflexivity. Qed.

Lemma rblocks_ext : forall L b e n s acc,
  (forall g l, rblocks L b n s acc = BOk g l -> rblocks L b n (s ++ e) acc = BOk g (l ++ e)) /\
  (rblocks L b n s acc = BUB -> rblocks L b n (s ++ e) acc = BUB).
Proof.
  intros L b e n. induction n; intros s acc.
  { cbn. split; [intros g l H; injection H as <- <-; reflexivity | discriminate]. }
  cbn [rblocks].
  destruct (Nat.ltb_spec (length s) (8 + blk L)) as [E|E]; [split; intros; discriminate|].
  destruct (Nat.ltb_spec (length (s ++ e)) (8 + blk L)) as [E'|_]; [rewrite app_length in E'; lia|].
  rewrite !skipn_more by lia. rewrite !firstn_more by (rewrite ?skipn_length; lia).
  destruct (Z.of_nat (blk L) <? _); [split; intros; [discriminate|reflexivity]|].
  destruct (negb _); [split; intros; discriminate|].
  destruct (match b with Some _ => _ | None => _ end); [split; intros; [discriminate|reflexivity]|].
  apply IHn.
Qed.

Lemma rfiles_ext : forall L e nb nf s acc,
  (forall g l, rfiles L nf nb s acc = Some (Some (g, l)) -> rfiles L nf nb (s ++ e) acc = Some (Some (g, l ++ e))) /\
  (rfiles L nf nb s acc = None -> rfiles L nf nb (s ++ e) acc = None).
Proof.
  intros L e nb nf. induction nf; intros s acc.
  { cbn. split; [intros g l H; injection H as <- <-; reflexivity | discriminate]. }
  cbn [rfiles]. destruct (rblocks_ext L None e nb s []) as [H1 H2].
  destruct (rblocks L None nb s []) as [| |f l].
  - split; intros; discriminate.
  - rewrite H2 by reflexivity. split; intros; [discriminate|reflexivity].
  - rewrite (H1 f l) by reflexivity. apply IHnf.
Qed.

Lemma getBuf_ext : forall len s e b l, getBuf len s = Some (b, l) -> getBuf len (s ++ e) = Some (b, l ++ e).
Proof.
  intros len s e b l. unfold getBuf. destruct (Z.ltb_spec len 0); [discriminate|].
  destruct (Z.ltb_spec (Z.of_nat (length s)) len); [discriminate|]. cbn [orb]. intros H1. injection H1 as <- <-.
  destruct (Z.ltb_spec (Z.of_nat (length (s ++ e))) len) as [Q|_]; [rewrite app_length in Q; lia|].
  rewrite firstn_more, skipn_more by lia. reflexivity.
Qed.

Lemma section_ext : forall L nf r t len s e,
  (forall r' l, section L nf r t len s = SOk r' l -> section L nf r t len (s ++ e) = SOk r' (l ++ e)) /\
  (section L nf r t len s = SUB -> section L nf r t len (s ++ e) = SUB).
Proof.
  intros L nf r t len s e.
  assert (SEG : forall t,
    (forall r' l, (if (len <=? 0) || hasSeg r t then SFail
    else match rblocks L (Some len) (Z.to_nat (blocks64 L len)) s [] with
         | BFail => SFail | BUB => SUB
         | BOk d s => SOk (mkR (rNvm r) (rSegs r ++ [(t, d ++ repeat 0 (Z.to_nat len - length d))]) (rNavy r)) s
         end) = SOk r' l -> (if (len <=? 0) || hasSeg r t then SFail
    else match rblocks L (Some len) (Z.to_nat (blocks64 L len)) (s ++ e) [] with
         | BFail => SFail | BUB => SUB
         | BOk d s => SOk (mkR (rNvm r) (rSegs r ++ [(t, d ++ repeat 0 (Z.to_nat len - length d))]) (rNavy r)) s
         end) = SOk r' (l ++ e)) /\
    ((if (len <=? 0) || hasSeg r t then SFail
    else match rblocks L (Some len) (Z.to_nat (blocks64 L len)) s [] with
         | BFail => SFail | BUB => SUB
         | BOk d s => SOk (mkR (rNvm r) (rSegs r ++ [(t, d ++ repeat 0 (Z.to_nat len - length d))]) (rNavy r)) s
         end) = SUB -> (if (len <=? 0) || hasSeg r t then SFail
    else match rblocks L (Some len) (Z.to_nat (blocks64 L len)) (s ++ e) [] with
         | BFail => SFail | BUB => SUB
         | BOk d s => SOk (mkR (rNvm r) (rSegs r ++ [(t, d ++ repeat 0 (Z.to_nat len - length d))]) (rNavy r)) s
         end) = SUB)).
  { intros t0. destruct ((len <=? 0) || hasSeg r t0); [split; intros; discriminate|].
    destruct (rblocks_ext L (Some len) e (Z.to_nat (blocks64 L len)) s []) as [H1 H2].
    destruct (rblocks L (Some len) (Z.to_nat (blocks64 L len)) s []) as [| |d l0].
    - split; intros; discriminate.
    - rewrite H2 by reflexivity. split; intros; [discriminate|reflexivity].
    - rewrite (H1 d l0) by reflexivity. split; intros; [|discriminate]. injection H as <- <-. reflexivity. }
  destruct t as [|[|[|[|[|[|[|[|t]]]]]]]]; try apply SEG; cbn [section].
  - destruct (getBuf len s) as [[b l]|] eqn:E; [|split; intros; discriminate].
    rewrite (getBuf_ext _ _ e _ _ E). destruct (verOk L b); split; intros; try discriminate. injection H as <- <-. reflexivity.
  - destruct (getBuf len s) as [[b l]|] eqn:E; [|split; intros; discriminate].
    rewrite (getBuf_ext _ _ e _ _ E). destruct (cfgOk L b); split; intros; try discriminate. injection H as <- <-. reflexivity.
  - destruct (getBuf len s) as [[b l]|] eqn:E; [|split; intros; discriminate].
    rewrite (getBuf_ext _ _ e _ _ E). split; intros; try discriminate. injection H as <- <-. reflexivity.
  - destruct (rfiles_ext L e (iters (blocks32 L len)) nf s []) as [H1 H2].
    destruct (rfiles L nf (iters (blocks32 L len)) s []) as [[[fs l]|]|].
    + rewrite (H1 fs l) by reflexivity. split; intros; try discriminate. injection H as <- <-. reflexivity.
    + split; intros; discriminate.
    + rewrite H2 by reflexivity. split; intros; [discriminate|reflexivity].
  - split; intros; discriminate.
Qed.

Lemma rloop_ext : forall L nf hl e fuel fuel' r s, (fuel <= fuel')%nat ->
  (forall r' l, rloop L nf fuel hl r s = ROk r' l -> rloop L nf fuel' hl r (s ++ e) = ROk r' (l ++ e)) /\
  (rloop L nf fuel hl r s = RUB -> rloop L nf fuel' hl r (s ++ e) = RUB).
Proof.
  intros L nf hl e fuel. induction fuel; intros fuel' r s F.
  { cbn. split; intros; discriminate. }
  destruct fuel' as [|fuel']; [lia|]. cbn [rloop].
  destruct (Nat.ltb_spec (length s) hl) as [E|E]; [split; intros; discriminate|].
  destruct (Nat.ltb_spec (length (s ++ e)) hl) as [E'|_]; [rewrite app_length in E'; lia|].
  rewrite firstn_more, skipn_more by lia.
  destruct (decH L (firstn hl s)) as [[t len]|]; [|split; intros; discriminate].
  destruct (section_ext L nf r t len (skipn hl s) e) as [H1 H2].
  destruct (section L nf r t len (skipn hl s)) as [| |r1 l1].
  - split; intros; discriminate.
  - rewrite H2 by reflexivity. split; intros; [discriminate|reflexivity].
  - rewrite (H1 r1 l1) by reflexivity. destruct l1 as [|m l1]; [split; intros; discriminate|]. cbn [app].
    destruct (m =? 30); [apply IHfuel; lia|].
    destruct (m =? 31); [|split; intros; discriminate].
    split; intros; [|discriminate]. injection H as <- <-. reflexivity.
Qed.

Lemma restore_ext : forall L old nf p e,
  (forall r l, restore L old nf p = ROk r l -> restore L old nf (p ++ e) = ROk r (l ++ e)) /\
  ((9 <= length p)%nat -> restore L old nf p = RUB -> restore L old nf (p ++ e) = RUB).
Proof.
  intros L old nf p e. destruct p as [|b p]; [cbn; split; intros; discriminate|].
  unfold restore. cbn [app]. destruct (negb (b =? 28)); [split; intros; discriminate|].
  destruct (Nat.ltb_spec (length p) 8) as [E|E].
  { split; intros; [discriminate|]. cbn in H. lia. }
  destruct (Nat.ltb_spec (length (p ++ e)) 8) as [E'|_]; [rewrite app_length in E'; lia|].
  rewrite firstn_more, skipn_more by lia. cbv zeta.
  destruct (Z.ltb_spec (Z.of_nat (length (skipn 8 p))) (dec (firstn 8 p))) as [Q|Q]; [split; intros; discriminate|].
  destruct (Z.ltb_spec (Z.of_nat (length (skipn 8 p ++ e))) (dec (firstn 8 p))) as [Q'|_]; [rewrite app_length in Q'; lia|].
  destruct (rloop_ext L nf (Z.to_nat (dec (firstn 8 p))) e (S (length (skipn 8 p))) (S (length (skipn 8 p ++ e))) (mkR old [] None) (skipn 8 p)) as [H1 H2].
  { rewrite app_length. lia. }
  split; auto.
Qed.

Lemma restore_short : forall L old nf p, (length p < 9)%nat -> restore L old nf p = RFail \/ (restore L old nf p = RUB /\ p <> []).
Proof.
  intros L old nf p H. destruct p as [|b p]; [left; reflexivity|]. unfold restore.
  destruct (negb (b =? 28)); [left; reflexivity|]. cbn in H.
  destruct (Nat.ltb_spec (length p) 8); [|lia]. right. split; [reflexivity|discriminate].
Qed.

Theorem truncated : forall L m old c s p e, goodLib L -> goodCache L c -> below4G L c -> keepsLength m -> saveVia L m c = Some s ->
  s = p ++ e -> e <> [] -> 
  restore L old (length (navy c)) p = RFail \/ (restore L old (length (navy c)) p = RUB /\ (1 <= length p < 9)%nat).
Proof.
  intros L m old c s p e G C F K E Es Ne.
  destruct (Nat.lt_ge_cases (length p) 9) as [S9|S9].
  { destruct (restore_short L old (length (navy c)) p S9) as [R|[R N]]; [auto|]. right. split; [auto|].
    destruct p; [congruence|]. cbn in *. lia. }
  pose proof (restore_via L m old c s [] G C F K E) as R. rewrite app_nil_r, Es in R.
  destruct (restore_ext L old (length (navy c)) p e) as [H1 H2].
  destruct (restore L old (length (navy c)) p) as [| |r l] eqn:Q; [auto| |].
  - rewrite (H2 S9 eq_refl) in R. destruct (okAll L m c); discriminate.
  - rewrite (H1 r l eq_refl) in R. destruct (okAll L m c); [|discriminate].
    injection R as _ R. destruct l; [cbn in R; congruence|discriminate].
Qed.

(** and the eight lengths at which more is read than there is *)
Lemma truncated_ub : forall L c s p e old nf, save L c = Some s -> s = p ++ e -> (1 <= length p < 9)%nat -> restore L old nf p = RUB.
Proof.
  intros L c s p e old nf H E P. unfold save, saveVia in H. destruct (existsb _ _); [discriminate|]. 
  apply f_equal with (f := fun o => match o with Some a => a | None => s end) in H. cbv beta iota in H.
  destruct p as [|b p]; [cbn in P; lia|]. rewrite E in H. cbn [app] in H.
  assert (b = 28) by congruence. subst b. unfold restore. cbn [negb Z.eqb Pos.eqb]. cbn in P.
  destruct (Nat.ltb_spec (length p) 8); [reflexivity|lia].
Qed.

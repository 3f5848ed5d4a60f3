From Coq Require Import List NArith Lia Bool.
Import ListNotations.
From Verif Require Import Device_model Device_spec Device_proofs.
Local Open Scope N_scope.

Lemma nth_window n m (l : list byte) j : (j < n)%nat -> nth j (firstn n (skipn m l)) 0 = nth (m + j) l 0.
Proof.
  revert l n j. induction m as [|m IH]; intros l n j H.
  - cbn [skipn Nat.add]. revert n j H. induction l as [|x l IHl]; intros n j H.
    + rewrite firstn_nil. destruct j; auto.
    + destruct n; [lia|]. destruct j; cbn; auto. apply IHl. lia.
  - destruct l as [|x l]; cbn [skipn].
    + rewrite firstn_nil. destruct j; auto.
    + cbn [Nat.add nth]. now apply IH.
Qed.
Lemma window_length n m (l : list byte) : (m + n <= length l)%nat -> length (firstn n (skipn m l)) = n.
Proof. intro H. rewrite firstn_length, skipn_length. lia. Qed.

Section P.
Variable g : cfg.
Hypothesis V : valid g.
Variables E D : N -> list byte -> list byte.
Hypothesis B : match enc g with None => True | Some e => blockwise (ioAlign g) e E D end.
Notation bs := (ioAlign g).

Definition pview (fs : files) (o : N) : byte :=
  match enc g with
  | None => L g fs o
  | Some _ => nth (N.to_nat (o mod bs)) (D (o - o mod bs) (Lbytes g fs (o - o mod bs) bs)) 0
  end.

Lemma bs_pos : 0 < bs. Proof. apply V. Qed.

Lemma Lbytes_length fs o n : length (Lbytes g fs o n) = N.to_nat n.
Proof. apply bytes_of_length. Qed.
Lemma Lbytes_nth fs o n i : (i < N.to_nat n)%nat -> nth i (Lbytes g fs o n) 0 = L g fs (o + N.of_nat i).
Proof. intro H. unfold Lbytes. now rewrite bytes_of_nth. Qed.

Lemma mod_shift q p : (q * bs + p) mod bs = p mod bs.
Proof. rewrite N.add_comm, N.mod_add; auto. pose proof bs_pos; lia. Qed.

Lemma split_at p : p = p / bs * bs + p mod bs /\ p mod bs < bs.
Proof.
  pose proof bs_pos as H. split; [|apply N.mod_upper_bound; lia].
  rewrite (N.mul_comm (p / bs)). apply N.div_mod. lia.
Qed.

Lemma write_view fs off data ft fs' ok : legal_write g off data -> write g fs off data ft = Some (fs', ok) ->
  (forall o, ~ (off <= o < off + N.of_nat (length data)) -> pview fs' o = pview fs o) /\
  (ok = true -> forall o, off <= o < off + N.of_nat (length data) -> pview fs' o = nth (N.to_nat (o - off)) data 0).
Proof.
  intros (Ao & Al & Hl) W. unfold write in W. unfold pview. destruct (enc g) as [e|].
  2:{ destruct (writeInternal_L g V _ _ _ _ _ Hl W) as [W1 W2]. cbn [fst snd] in *. auto. }
  destruct B as (B1 & B2 & B3).
  destruct (encrypt e data off) as [d'|] eqn:EN.
  2:{ inversion W; subst. split; [auto|discriminate]. }
  destruct (B2 _ _ _ EN) as [Ld Hb]. rewrite <- Ld in Hl.
  destruct (writeInternal_L g V _ _ _ _ _ Hl W) as [W1 W2]. cbn [fst snd] in *. rewrite Ld in *.
  destruct Ao as [q Hq]. destruct Al as [n Hn]. subst off. rewrite Hn in *. pose proof bs_pos as HB.
  split.
  - intros o Ho. destruct (split_at o) as [S1 S2]. set (m := o / bs) in *. set (r := o mod bs) in *. clearbody m r.
    assert (X : o - r = m * bs) by lia. rewrite X. f_equal. f_equal.
    apply list_ext; [now rewrite !Lbytes_length|]. intros i Hi. rewrite Lbytes_length in Hi.
    rewrite !Lbytes_nth by auto. apply W1. subst o.
    assert (C : m + 1 <= q \/ q + n <= m) by nia.
    assert (I2 : N.of_nat i < bs) by lia.
    destruct C as [C|C]; [assert ((m + 1) * bs <= q * bs) by nia | assert ((q + n) * bs <= m * bs) by nia]; lia.
  - intros -> o Ho. destruct (split_at (o - q * bs)) as [S1 S2].
    set (m := (o - q * bs) / bs) in *. set (r := (o - q * bs) mod bs) in *.
    assert (X : o = (q + m) * bs + r) by nia.
    assert (R : o mod bs = r).
    { rewrite X, mod_shift. apply N.mod_small. auto. }
    clearbody m r. rewrite R.
    assert (Hm : m < n) by nia.
    assert (Z : o - r = q * bs + m * bs) by nia. rewrite Z.
    assert (K : (S (N.to_nat m) * N.to_nat bs <= length data)%nat).
    { assert ((m + 1) * bs <= n * bs) by nia. nia. }
    assert (Q : Lbytes g fs' (q * bs + m * bs) bs = firstn (N.to_nat bs) (skipn (N.to_nat m * N.to_nat bs) d')).
    { apply list_ext.
      - rewrite Lbytes_length, window_length; auto. rewrite Ld. cbn in K. lia.
      - intros i Hi. rewrite Lbytes_length in Hi. rewrite Lbytes_nth, nth_window by auto.
        rewrite W2 by (auto; nia). f_equal. nia. }
    rewrite Q, (Hb (N.to_nat m) K), Nnat.N2Nat.id.
    destruct (B1 (q * bs + m * bs) (firstn (N.to_nat bs) (skipn (N.to_nat m * N.to_nat bs) data))) as (_ & _ & ->).
    { apply window_length. cbn in K. lia. }
    rewrite nth_window by lia. f_equal. nia.
Qed.

Lemma readInternal_view fs q size ft l : (bs | size) -> size < U32 ->
  readInternal g fs (q * bs) size ft = Some (Some l) ->
  length l = N.to_nat size /\ forall p, p < size -> nth (N.to_nat p) l 0 = pview fs (q * bs + p).
Proof.
  intros [n Hn] HS H. pose proof (readInternal_L g V _ _ _ _ _ HS H) as Q. unfold pview.
  destruct (enc g) as [e|].
  2:{ subst l. split; [apply Lbytes_length|]. intros p Hp. rewrite Lbytes_nth by lia. now rewrite Nnat.N2Nat.id. }
  destruct B as (_ & _ & B3). destruct (B3 _ _ _ Q) as [Ll Hb]. rewrite Lbytes_length in *. split; auto.
  intros p Hp. destruct (split_at p) as [S1 S2]. rewrite mod_shift.
  set (m := p / bs) in *. set (r := p mod bs) in *. clearbody m r. pose proof bs_pos as HB. subst size p.
  assert (Hm : m < n) by nia.
  assert (K : (S (N.to_nat m) * N.to_nat bs <= N.to_nat (n * bs))%nat) by nia.
  specialize (Hb (N.to_nat m) K). rewrite Nnat.N2Nat.id in Hb.
  replace (q * bs + (m * bs + r) - r) with (q * bs + m * bs) by lia.
  assert (X : Lbytes g fs (q * bs + m * bs) bs = firstn (N.to_nat bs) (skipn (N.to_nat m * N.to_nat bs) (Lbytes g fs (q * bs) (n * bs)))).
  { apply list_ext.
    - rewrite Lbytes_length, window_length; auto. rewrite Lbytes_length. cbn in K. lia.
    - intros i Hi. rewrite Lbytes_length in Hi. rewrite Lbytes_nth, nth_window by auto.
      rewrite Lbytes_nth by (cbn in K; nia). f_equal. nia. }
  rewrite X, <- Hb, nth_window by lia. f_equal. nia.
Qed.

Lemma read_view fs off size ft l :
  off mod bs + size + (bs - 1) < U32 ->
  read g fs off size ft = Some (Some l) ->
  length l = N.to_nat size /\ forall i, i < size -> nth (N.to_nat i) l 0 = pview fs (off + i).
Proof.
  intros HU H. unfold read in H. destruct (split_at off) as [S1 S2].
  set (m := off / bs) in *. set (r := off mod bs) in *. clearbody m r. pose proof bs_pos as HB. subst off.
  replace (m * bs + r - r) with (m * bs) in H by lia.
  set (n := (r + size + (bs - 1)) / bs) in *.
  assert (N1 : n * bs <= r + size + (bs - 1)).
  { unfold n. rewrite N.mul_comm. apply N.mul_div_le. lia. }
  assert (N2 : r + size <= n * bs).
  { pose proof (N.mul_succ_div_gt (r + size + (bs - 1)) bs ltac:(lia)) as G. fold n in G. nia. }
  clearbody n. rewrite (N.mod_small (n * bs)) in H by lia.
  destruct (readInternal g fs (m * bs) (n * bs) ft) as [[l0|]|] eqn:Hr; inversion H; subst l; clear H.
  destruct (readInternal_view fs m (n * bs) ft l0 ltac:(now exists n) ltac:(lia) Hr) as [Ln Hv].
  split.
  - apply window_length. lia.
  - intros i Hi. rewrite nth_window by lia.
    replace (N.to_nat r + N.to_nat i)%nat with (N.to_nat (r + i)) by lia.
    rewrite Hv by lia. f_equal. lia.
Qed.

Lemma run_expect fs h : run g fs h -> forall o b, expect h o = Some b -> pview fs o = b.
Proof.
  induction 1 as [|fs h off data ft fs' ok R IH Lw W]; intros o b H; [discriminate|].
  destruct (write_view _ _ _ _ _ _ Lw W) as [W1 W2]. cbn [expect w_off w_data w_ok] in H.
  destruct (N.leb_spec off o); cbn [andb] in H.
  - destruct (N.ltb_spec o (off + N.of_nat (length data))).
    + destruct ok; inversion H. apply W2; auto.
    + rewrite W1 by lia. auto.
  - rewrite W1 by lia. auto.
Qed.
End P.

(** ** The mapping *)
Lemma place_bound g n o : valid g -> 1 < numFiles g ->
  o < numFiles g * (n * stripeSize g) -> fst (place g o) < numFiles g /\ snd (place g o) < n * stripeSize g.
Proof.
  intros V H1 Ho. destruct V as (_ & _ & _ & _ & _ & _ & _ & Hs). destruct (Hs H1) as [Hs0 _].
  unfold place. destruct (N.ltb_spec 1 (numFiles g)); [|lia]. cbn [fst snd].
  split; [apply N.mod_upper_bound; lia|].
  pose proof (N.mod_upper_bound o (stripeSize g) ltac:(lia)) as U.
  assert (Q : o / stripeSize g / numFiles g < n).
  { apply N.div_lt_upper_bound; [lia|]. apply N.div_lt_upper_bound; [lia|]. lia. }
  nia.
Qed.
Lemma place_onto g n f x : valid g -> 1 < numFiles g -> f < numFiles g -> x < n * stripeSize g ->
  exists o, o < numFiles g * (n * stripeSize g) /\ place g o = (f, x).
Proof.
  intros V H1 Hf Hx. destruct V as (_ & _ & _ & _ & _ & _ & _ & Hs). destruct (Hs H1) as [Hs0 _].
  set (s := stripeSize g) in *. set (k := numFiles g) in *.
  pose proof (N.div_mod x s ltac:(lia)) as E. pose proof (N.mod_upper_bound x s ltac:(lia)) as U.
  assert (Q : x / s < n) by (apply N.div_lt_upper_bound; lia).
  exists ((x / s * k + f) * s + x mod s). split.
  - assert ((x / s * k + f) + 1 <= n * k) by nia. nia.
  - unfold place. fold k s. destruct (N.ltb_spec 1 k); [|lia].
    assert (D1 : ((x / s * k + f) * s + x mod s) / s = x / s * k + f).
    { symmetry. apply (N.div_unique _ _ _ (x mod s)); auto. lia. }
    assert (D2 : ((x / s * k + f) * s + x mod s) mod s = x mod s).
    { symmetry. apply (N.mod_unique _ _ (x / s * k + f)); auto. lia. }
    rewrite D1, D2.
    assert (D3 : (x / s * k + f) mod k = f).
    { symmetry. apply (N.mod_unique _ _ (x / s)); auto. lia. }
    assert (D4 : (x / s * k + f) / k = x / s).
    { symmetry. apply (N.div_unique _ _ _ f); auto. lia. }
    rewrite D3, D4. f_equal. lia.
Qed.

(** ** Operations of one request *)
Lemma tiles_cover g l off size pos : tiles g l off size pos ->
  forall i, i < size -> exists o, In o l /\ opos o <= pos + i < opos o + osize o /\
    place g (off + i) = (fd o, fofs o + (pos + i - opos o)).
Proof.
  induction 1 as [|op l off size pos G Hp Hs T IH]; intros i Hi; [lia|].
  destruct (N.lt_ge_cases i (osize op)) as [H|H].
  - exists op. split; [now left|]. rewrite Hp. split; [lia|]. rewrite (G i H). f_equal. lia.
  - destruct (IH (i - osize op) ltac:(lia)) as (o & Io & Ho & Po). exists o. split; [now right|].
    replace (pos + osize op + (i - osize op)) with (pos + i) in * by lia.
    replace (off + osize op + (i - osize op)) with (off + i) in * by lia. auto.
Qed.
Lemma tiles_inside g l off size pos o : tiles g l off size pos -> In o l ->
  pos <= opos o /\ opos o + osize o <= pos + size.
Proof.
  induction 1 as [|op l off size pos G Hp Hs T IH]; intros [].
  - subst. lia.
  - specialize (IH H). lia.
Qed.
Lemma tiles_once g l off size pos : tiles g l off size pos ->
  forall i j, (i < j < length l)%nat ->
    opos (nth i l (mkOp 0 0 0 0)) + osize (nth i l (mkOp 0 0 0 0)) <= opos (nth j l (mkOp 0 0 0 0)).
Proof.
  induction 1 as [|op l off size pos G Hp Hs T IH]; intros i j Hij; cbn [length] in *; [lia|].
  destruct j as [|j]; [lia|]. destruct i as [|i]; cbn [nth].
  - destruct (tiles_inside _ _ _ _ _ (nth j l (mkOp 0 0 0 0)) T) as [X _]; [apply nth_In; lia|]. lia.
  - apply IH. lia.
Qed.

Lemma write_ops_ok l : forall fs data ft, (forall i, ft i = None) -> snd (write_ops fs data l ft) = true.
Proof.
  induction l as [|o l IH]; intros fs data ft F; cbn [write_ops]; auto.
  specialize (IH (write_op fs data o (ft O)) data (fun i => ft (S i)) (fun i => F (S i))).
  destruct (write_ops (write_op fs data o (ft O)) data l _). cbn [snd] in *. now rewrite F.
Qed.

Lemma huge_write g fs off data : valid g -> enc g = None -> maxWriteSize g = 0 -> N.of_nat (length data) = U32 ->
  exists fs', write g fs off data (fun _ _ => None) = Some (fs', true) /\ forall o, L g fs' o = L g fs o.
Proof.
  intros V He Hm Hl. unfold write, writeInternal. rewrite He, Hm, Hl. cbn [N.eqb].
  cbn [write_chunks]. change (U32 =? 0) with false. cbn iota.
  rewrite N.min_id, N.mod_same by discriminate.
  destruct (req_some g V off 0 0) as [l E]. rewrite E. apply (req_tiles g V) in E.
  pose proof (write_ops_ok l fs data (fun _ => None) (fun _ => eq_refl)) as K.
  destruct (write_ops fs data l (fun _ => None)) as [fs' ok] eqn:W. cbn [snd] in K. subst ok.
  rewrite N.sub_diag. exists fs'. split.
  - destruct (length data); reflexivity.
  - intro o. apply (write_ops_L g V _ _ _ _ E _ _ _ _ _ W). lia.
Qed.

Lemma write_some g fs off data ft : valid g -> exists r, write g fs off data ft = Some r.
Proof.
  intro V. unfold write. destruct (enc g); [destruct (encrypt _ _ _); [|eauto]|]; now apply writeInternal_some.
Qed.

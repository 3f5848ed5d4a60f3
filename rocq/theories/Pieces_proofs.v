From Verif Require Import Bytes Pieces_model Pieces_spec.
From Coq Require Import ZifyBool ZifyNat ZifyN Ascii String Decimal DecimalN DecimalFacts List.
Import ListNotations.
Local Open Scope list_scope.
Local Open Scope N_scope.
Ltac Zify.zify_post_hook ::= idtac.

Lemma sub64_ok a b : b <= a -> a < two64 -> sub64 a b = a - b.
Proof.
  intros L U. unfold sub64, wrap64. rewrite (N.mod_small b) by lia.
  replace (a + two64 - b) with (a - b + 1 * two64) by lia.
  rewrite N.mod_add by discriminate. apply N.mod_small. lia.
Qed.
Lemma add64_ok a b : a + b < two64 -> add64 a b = a + b.
Proof. intros. apply N.mod_small. assumption. Qed.
Lemma mul64_ok a b : a * b < two64 -> mul64 a b = a * b.
Proof. intros. apply N.mod_small. assumption. Qed.

Lemma div_lo a b : 0 < b -> a / b * b <= a.
Proof. intros. rewrite N.mul_comm. apply N.mul_div_le. lia. Qed.
Lemma div_hi a b : 0 < b -> a < (a / b + 1) * b.
Proof. intros. rewrite N.mul_comm, N.add_1_r. apply N.mul_succ_div_gt. lia. Qed.
Lemma div_le_iff i a b : 0 < b -> (i <= a / b <-> i * b <= a).
Proof.
  intros P. split; intros H.
  - pose proof (div_lo a b P). nia.
  - apply N.div_le_lower_bound; [lia|]. rewrite N.mul_comm. exact H.
Qed.

Section P.
Variables (ps ppg len : N).
Hypothesis Ps : 0 < ps.
Hypothesis Len : 0 < len.
Hypothesis Fit : len + ps <= two64.

Lemma total_ok : calculateNumPiecesTotal len ps = (len - 1) / ps + 1.
Proof.
  unfold calculateNumPiecesTotal. rewrite sub64_ok by lia. apply add64_ok.
  pose proof (N.div_le_mono (len - 1) (len - 1) ps ltac:(lia) ltac:(lia)).
  assert ((len - 1) / ps <= len - 1) by (apply N.div_le_upper_bound; nia). lia.
Qed.
Lemma lastPiece_small : (len - 1) / ps + 1 < two64.
Proof. assert ((len - 1) / ps <= len - 1) by (apply N.div_le_upper_bound; nia). lia. Qed.

(** a well formed pieces object *)
Definition good (p : pieces) : Prop :=
  pieceSize p = ps /\ fullBodyLen p = len /\ startPiece p <= endPiece p /\ endPiece p <= (len - 1) / ps.

Lemma construct_eq r :
  construct ps ppg len r =
  (let s := match r with Some (Some (a, _)) => a / ps | _ => 0 end in
   let e := wantLast len r / ps in
   if s <=? e then Some {| pieceSize := ps; numPiecesPerGroup := ppg; fullBodyLen := len; curFetching := s;
     numPiecesTotal := (len - 1) / ps + 1; startPiece := s; endPiece := e |} else None).
Proof.
  unfold construct. destruct (N.ltb_spec 0 len); [|lia]. destruct (N.eqb_spec ps 0); [lia|].
  cbv zeta. rewrite total_ok. rewrite sub64_ok; [|rewrite N.add_comm; apply N.le_add_r|exact lastPiece_small].
  rewrite N.add_sub.
  destruct r as [[[a [e|]]|]|]; cbn [resetFromRequestRange wantLast pieceSize numPiecesPerGroup fullBodyLen
    curFetching numPiecesTotal startPiece endPiece]; unfold resetFromRequestRange;
    cbn [pieceSize numPiecesPerGroup fullBodyLen curFetching numPiecesTotal startPiece endPiece]; try reflexivity.
  - destruct (N.ltb_spec e len).
    + rewrite N.min_l by lia. reflexivity.
    + rewrite N.min_r by lia. reflexivity.
  - destruct (N.leb_spec 0 ((len - 1) / ps)) as [|X]; [reflexivity|exfalso; exact (N.nlt_0_r _ X)].
Qed.

Lemma construct_good r p : construct ps ppg len r = Some p -> good p.
Proof.
  rewrite construct_eq. cbv zeta. destruct (N.leb_spec (match r with Some (Some (a, _)) => a / ps | _ => 0 end) (wantLast len r / ps)); [|discriminate].
  intros [= <-]. unfold good; cbn. repeat split; try assumption.
  apply N.div_le_mono; [lia|]. unfold wantLast. destruct r as [[[a [e|]]|]|]; lia.
Qed.

Lemma reset_good p r p' : good p -> resetFromRequestRange p r = Some p' -> good p'.
Proof.
  intros (G1 & G2 & G3 & G4). unfold resetFromRequestRange. rewrite G1, G2.
  destruct r as [[a [e|]]|].
  - destruct (N.ltb_spec e len).
    + destruct (N.leb_spec (a / ps) (e / ps)); [|discriminate]. intros [= <-].
      unfold good; cbn. repeat split; auto. apply N.div_le_mono; lia.
    + destruct (N.leb_spec (a / ps) (endPiece p)); [|discriminate]. intros [= <-].
      unfold good; cbn. repeat split; auto.
  - destruct (N.leb_spec (a / ps) (endPiece p)); [|discriminate]. intros [= <-].
    unfold good; cbn. repeat split; auto.
  - destruct (N.leb_spec (startPiece p) (endPiece p)); [|discriminate]. intros [= <-].
    unfold good; cbn. repeat split; auto.
Qed.

(** bytes of a piece *)
Lemma piece_in i : i <= (len - 1) / ps -> i * ps <= len - 1.
Proof. intros. apply div_le_iff; assumption. Qed.
Lemma pieceLen_pos i : i <= (len - 1) / ps -> 0 < pieceLen ps len i /\ i * ps + pieceLen ps len i <= len /\ pieceLen ps len i <= ps.
Proof. intros H. apply piece_in in H. unfold pieceLen. nia. Qed.
Lemma pieceLen_full i : i < (len - 1) / ps -> pieceLen ps len i = ps.
Proof. intros H. pose proof (piece_in (i + 1) ltac:(lia)). unfold pieceLen. nia. Qed.

Section Good.
Variable p : pieces.
Hypothesis G : good p.
Lemma lastByte : getLastByteOffsetOfLastPiece p = pieceOff ps (endPiece p) + pieceLen ps len (endPiece p) - 1.
Proof.
  destruct G as (G1 & G2 & G3 & G4). unfold getLastByteOffsetOfLastPiece. rewrite G1, G2.
  pose proof (piece_in _ G4) as B. pose proof lastPiece_small.
  rewrite (add64_ok (endPiece p)) by lia.
  rewrite mul64_ok by nia. rewrite !sub64_ok by nia. unfold pieceOff, pieceLen. nia.
Qed.
Lemma size_ok i : startPiece p <= i <= endPiece p -> getSizeOfAPiece p i = pieceLen ps len i.
Proof.
  intros I. destruct G as (G1 & G2 & G3 & G4). unfold getSizeOfAPiece. destruct (N.ltb_spec i (endPiece p)).
  - rewrite G1. symmetry. apply pieceLen_full. lia.
  - assert (i = endPiece p) as -> by lia. rewrite lastByte, G1.
    destruct (pieceLen_pos _ G4) as (A1 & A2 & A3). unfold pieceOff.
    replace (endPiece p * ps + pieceLen ps len (endPiece p) - 1) with (pieceLen ps len (endPiece p) - 1 + endPiece p * ps) by lia.
    rewrite N.mod_add by lia. rewrite N.mod_small by lia. rewrite add64_ok by lia. lia.
Qed.
Lemma sum_ok n : forall i, i + N.of_nat n <= (len - 1) / ps ->
  sumLen ps len i (S n) = (i + N.of_nat n) * ps + pieceLen ps len (i + N.of_nat n) - i * ps.
Proof.
  induction n as [|n IH]; intros i H; cbn [sumLen].
  - replace (i + N.of_nat 0) with i by lia. lia.
  - cbn [sumLen] in IH. rewrite IH by lia. rewrite pieceLen_full by lia.
    replace (i + 1 + N.of_nat n) with (i + N.of_nat (S n)) by lia.
    set (L := pieceLen ps len (i + N.of_nat (S n))). 
    assert ((i + N.of_nat (S n)) * ps >= (i+1) * ps) by nia. nia.
Qed.
Lemma count_nat c : c <= endPiece p -> N.to_nat (endPiece p - c + 1) = S (N.to_nat (endPiece p - c)).
Proof. intros. lia. Qed.
Lemma remaining_gen c : c <= endPiece p ->
  add64 (sub64 (getLastByteOffsetOfLastPiece p) (c * ps)) 1 = sumLen ps len c (N.to_nat (endPiece p - c + 1)).
Proof.
  intros C. destruct G as (G1 & G2 & G3 & G4). rewrite count_nat by exact C.
  rewrite sum_ok by lia. replace (c + N.of_nat (N.to_nat (endPiece p - c))) with (endPiece p) by lia.
  rewrite lastByte. unfold pieceOff. destruct (pieceLen_pos _ G4) as (A1 & A2 & A3).
  assert (c * ps <= endPiece p * ps) by nia.
  rewrite sub64_ok by lia. rewrite add64_ok by lia. lia.
Qed.
Lemma start_small c : c <= endPiece p -> c * ps < two64.
Proof. intros C. destruct G as (G1 & G2 & G3 & G4). pose proof (piece_in _ G4). nia. Qed.
Lemma total_size_ok : getTotalSize p = sumLen ps len (startPiece p) (N.to_nat (endPiece p - startPiece p + 1)).
Proof.
  destruct G as (G1 & G2 & G3 & G4). unfold getTotalSize. rewrite G1, mul64_ok by (apply start_small; exact G3).
  apply remaining_gen. exact G3.
Qed.
Lemma remaining_ok : curFetching p <= endPiece p ->
  getRemainingBytes p = sumLen ps len (curFetching p) (N.to_nat (endPiece p - curFetching p + 1)).
Proof.
  intros C. destruct G as (G1 & G2 & G3 & G4). unfold getRemainingBytes, getFirstByteOffsetOfCurPiece.
  destruct (N.ltb_spec (endPiece p) (curFetching p)); [lia|].
  rewrite G1, mul64_ok by (apply start_small; exact C). apply remaining_gen. exact C.
Qed.
Lemma target_ok : getTargetNumPieces p = endPiece p - startPiece p + 1.
Proof.
  destruct G as (G1 & G2 & G3 & G4). pose proof lastPiece_small as LS. revert G4 LS. generalize ((len - 1) / ps). intros q G4 LS. unfold getTargetNumPieces. rewrite sub64_ok by lia. apply add64_ok. lia.
Qed.
Lemma first_ok : getFirstByteOffsetToFetch p = pieceOff ps (startPiece p).
Proof.
  destruct G as (G1 & G2 & G3 & G4). unfold getFirstByteOffsetToFetch. rewrite G1, mul64_ok by (apply start_small; exact G3). reflexivity.
Qed.
(** every byte of the fetched span is in exactly one piece *)
Lemma tile b : getFirstByteOffsetToFetch p <= b <= getLastByteOffsetOfLastPiece p <->
  exists i, (startPiece p <= i <= endPiece p) /\ pieceOff ps i <= b < pieceOff ps i + getSizeOfAPiece p i.
Proof.
  rewrite first_ok, lastByte. destruct G as (G1 & G2 & G3 & G4). destruct (pieceLen_pos _ G4) as (A1 & A2 & A3). unfold pieceOff.
  split.
  - intros B. exists (b / ps).
    assert (S : startPiece p <= b / ps) by (apply div_le_iff; lia).
    assert (T : b / ps <= endPiece p).
    { destruct (N.le_gt_cases (b / ps) (endPiece p)) as [X|X]; [exact X|].
      assert ((endPiece p + 1) * ps <= b) by (apply div_le_iff; lia). nia. }
    split; [lia|]. rewrite size_ok by lia. split; [apply div_lo; exact Ps|].
    pose proof (div_hi b ps Ps). unfold pieceLen in *. nia.
  - intros (i & I & B). rewrite size_ok in B by exact I.
    assert (startPiece p * ps <= i * ps) by nia. split; [lia|].
    destruct (N.eq_dec i (endPiece p)) as [->|NE]; [lia|].
    rewrite pieceLen_full in B by lia. assert ((i + 1) * ps <= endPiece p * ps) by nia. lia.
Qed.
Lemma tile_unique b i j : startPiece p <= i <= endPiece p -> startPiece p <= j <= endPiece p ->
  pieceOff ps i <= b < pieceOff ps i + getSizeOfAPiece p i ->
  pieceOff ps j <= b < pieceOff ps j + getSizeOfAPiece p j -> i = j.
Proof.
  intros I J. rewrite !size_ok by assumption. unfold pieceOff.
  destruct G as (G1 & G2 & G3 & G4).
  destruct (pieceLen_pos i ltac:(lia)) as (_ & _ & ?). destruct (pieceLen_pos j ltac:(lia)) as (_ & _ & ?). intros. nia.
Qed.
End Good.

Lemma construct_covers r : wantFirst r < len -> wantFirst r <= wantLast len r ->
  exists p, construct ps ppg len r = Some p /\ good p /\
    pieceOff ps (startPiece p) <= wantFirst r < pieceOff ps (startPiece p) + getSizeOfAPiece p (startPiece p) /\
    pieceOff ps (endPiece p) <= wantLast len r < pieceOff ps (endPiece p) + getSizeOfAPiece p (endPiece p) /\
    curFetching p = startPiece p.
Proof.
  intros W1 W2.
  assert (WL : wantLast len r <= len - 1) by (unfold wantLast; destruct r as [[[a [e|]]|]|]; lia).
  assert (S : match r with Some (Some (a, _)) => a / ps | _ => 0 end = wantFirst r / ps).
  { destruct r as [[[a o]|]|]; cbn; try reflexivity; symmetry; apply N.div_0_l; lia. }
  assert (LE : wantFirst r / ps <= wantLast len r / ps) by (apply N.div_le_mono; lia).
  assert (LE2 : wantLast len r / ps <= (len - 1) / ps) by (apply N.div_le_mono; lia).
  destruct (construct ps ppg len r) as [p|] eqn:E.
  2:{ rewrite construct_eq in E. cbv zeta in E. rewrite S in E. destruct (N.leb_spec (wantFirst r / ps) (wantLast len r / ps)); [discriminate|lia]. }
  exists p. split; [reflexivity|]. pose proof (construct_good _ _ E) as G. split; [exact G|].
  rewrite construct_eq in E. cbv zeta in E. rewrite S in E.
  destruct (N.leb_spec (wantFirst r / ps) (wantLast len r / ps)); [|lia]. injection E as E.
  assert (ES : startPiece p = wantFirst r / ps) by (subst p; reflexivity).
  assert (EE : endPiece p = wantLast len r / ps) by (subst p; reflexivity).
  assert (EC : curFetching p = startPiece p) by (subst p; reflexivity).
  destruct G as (G1 & G2 & G3 & G4).
  rewrite !size_ok by (try (split; [exact G1|split; [exact G2|split; assumption]]); lia).
  rewrite ES, EE in *. unfold pieceOff.
  pose proof (div_lo (wantFirst r) ps Ps). pose proof (div_hi (wantFirst r) ps Ps).
  pose proof (div_lo (wantLast len r) ps Ps). pose proof (div_hi (wantLast len r) ps Ps).
  unfold pieceLen. repeat split; nia.
Qed.
End P.

(** ** keys *)
Lemma decDigits_inj a : forall b, decDigits a = decDigits b -> a = b.
Proof. induction a; destruct b; cbn; intros E; try discriminate; try reflexivity; f_equal; apply IHa; congruence. Qed.
Lemma dec_inj a b : dec a = dec b -> a = b.
Proof.
  intros E. apply decDigits_inj in E. rewrite <- (Unsigned.of_to a), <- (Unsigned.of_to b), E. reflexivity.
Qed.
Definition isDigit (c : ascii) : bool :=
  existsb (Ascii.eqb c) (list_ascii_of_string "0123456789").
Lemma digits_digit d : forall c, In c (decDigits d) -> isDigit c = true.
Proof. induction d; cbn; intros c H; try contradiction; destruct H as [<-|H]; try reflexivity; apply IHd; exact H. Qed.
Lemma dec_notin n c : isDigit c = false -> ~ In c (dec n).
Proof. intros D H. apply digits_digit in H. congruence. Qed.
Lemma last_sep {A} (c : A) : forall a a' d d', ~ In c d -> ~ In c d' -> a ++ c :: d = a' ++ c :: d' -> a = a' /\ d = d'.
Proof.
  intros a a' d d' N1 N2 E.
  assert (R : rev d ++ c :: rev a = rev d' ++ c :: rev a').
  { apply (f_equal (@rev A)) in E. rewrite !rev_app_distr in E. cbn [rev] in E. rewrite <- !app_assoc in E. exact E. }
  assert (F : forall x x' y y', ~ In c x -> ~ In c x' -> x ++ c :: y = x' ++ c :: y' -> x = x' /\ y = y').
  { clear. induction x as [|h x IH]; destruct x' as [|h' x']; cbn; intros y y' N1 N2 E.
    - split; congruence.
    - exfalso. apply N2. left. congruence.
    - exfalso. apply N1. left. congruence.
    - injection E as -> E. destruct (IH x' y y') as [-> ->]; auto. }
  apply F in R as [R1 R2]; [|rewrite <- in_rev; assumption|rewrite <- in_rev; assumption].
  split; [rewrite <- (rev_involutive a), R2|rewrite <- (rev_involutive d), R1]; apply rev_involutive.
Qed.
Definition groupOf (num ppg : N) : N := if 0 <? ppg then num / ppg else 0.
Lemma createPieceKey_alt base num ppg ver :
  createPieceKey base num ppg ver =
  ((base ++ (if groupOf num ppg =? 0 then [] else kCacheGroupSeparator ++ dec (groupOf num ppg)) ++ kCachePieceSeparator ++ lit "body")
     ++ "-"%char :: dec ver) ++ "-"%char :: dec num.
Proof.
  unfold createPieceKey. fold (groupOf num ppg). cbv zeta. destruct (groupOf num ppg =? 0); cbn [app];
    repeat (rewrite <- app_assoc; cbn [app]); reflexivity.
Qed.
Lemma pieceKey_inj ppg b1 n1 v1 b2 n2 v2 :
  createPieceKey b1 n1 ppg v1 = createPieceKey b2 n2 ppg v2 -> b1 = b2 /\ n1 = n2 /\ v1 = v2.
Proof.
  rewrite !createPieceKey_alt. intros E.
  apply last_sep in E as [E EN]; try (apply dec_notin; reflexivity).
  apply last_sep in E as [E EV]; try (apply dec_notin; reflexivity).
  apply dec_inj in EN, EV. subst. split; [|split; reflexivity].
  apply app_inv_tail in E. exact E.
Qed.
Lemma header_ne_piece b1 v1 b2 n2 ppg v2 : createPieceHeaderKey b1 v1 <> createPieceKey b2 n2 ppg v2.
Proof.
  rewrite createPieceKey_alt. unfold createPieceHeaderKey. intros E.
  replace (b1 ++ kCachePieceSeparator ++ lit "header-" ++ dec v1) with
    ((b1 ++ kCachePieceSeparator ++ lit "header") ++ "-"%char :: dec v1) in E
    by (repeat (rewrite <- app_assoc; cbn [app]); reflexivity).
  apply last_sep in E as [E _]; try (apply dec_notin; reflexivity).
  apply (f_equal (@rev _)) in E. rewrite !rev_app_distr in E. cbn [rev app lit list_ascii_of_string] in E.
  rewrite <- !app_assoc in E. 
  destruct (rev (dec v2)) as [|c r] eqn:D.
  - cbn in E. discriminate.
  - assert (In c (dec v2)) as H by (rewrite in_rev, D; left; reflexivity).
    cbn in E. injection E as E _. subst c. apply dec_notin in H; [exact H|reflexivity].
Qed.

(** getBaseKey *)
Lemma find_skip pat c0 p s : pat = c0 :: p -> forall b, ~ In c0 b ->
  findSub pat (b ++ s) = option_map (fun i => (List.length b + i)%nat) (findSub pat s).
Proof.
  intros -> b. induction b as [|x b IH]; intros NI.
  - cbn [app List.length]. destruct (findSub (c0 :: p) s); reflexivity.
  - cbn [app findSub isPrefix]. destruct (Ascii.eqb_spec c0 x) as [->|NE]; [exfalso; apply NI; left; reflexivity|].
    cbn [andb]. rewrite IH by (intro X; apply NI; right; exact X).
    destruct (findSub (c0 :: p) s); reflexivity.
Qed.
Lemma find_none pat c s : In c pat -> ~ In c s -> findSub pat s = None.
Proof.
  intros I. assert (P : forall pat s, In c pat -> ~ In c s -> isPrefix pat s = false).
  { clear. induction pat as [|x pat IH]; intros s I NI; [contradiction|].
    destruct s as [|y s]; [reflexivity|]. cbn. destruct (Ascii.eqb_spec x y) as [->|]; [|reflexivity].
    cbn. destruct I as [->|I]; [exfalso; apply NI; left; reflexivity|]. apply IH; [exact I|]. intro; apply NI; right; assumption. }
  induction s as [|y s IH]; intros NI.
  - cbn. rewrite P by assumption. reflexivity.
  - cbn [findSub]. rewrite P by assumption. rewrite IH by (intro; apply NI; right; assumption). reflexivity.
Qed.
Lemma firstn_app_exact {A} (a b : list A) n : n = List.length a -> firstn n (a ++ b) = a.
Proof. intros ->. rewrite firstn_app, Nat.sub_diag, firstn_all. cbn. apply app_nil_r. Qed.
Lemma base_of_tail b t1 t : ~ In "|"%char b -> 
  (exists s, t = kCacheGroupSeparator ++ s) \/ (t = kCachePieceSeparator ++ t1 /\ ~ In "@"%char t1) ->
  getBaseKey (b ++ t) = b.
Proof.
  intros NI [[s ->]|[-> NA]]; unfold getBaseKey.
  - rewrite (find_skip kCacheGroupSeparator "|"%char (lit "@|") _ eq_refl b NI).
    cbn [findSub kCacheGroupSeparator lit list_ascii_of_string app isPrefix Ascii.eqb option_map].
    apply firstn_app_exact. lia.
  - rewrite (find_skip kCacheGroupSeparator "|"%char (lit "@|") _ eq_refl b NI).
    rewrite (find_none kCacheGroupSeparator "@"%char (kCachePieceSeparator ++ t1)).
    2:{ cbn. auto. }
    2:{ intros X. apply in_app_or in X as [X|X]; [cbn in X; destruct X as [X|[X|[X|[]]]]; discriminate|contradiction]. }
    cbn [option_map].
    rewrite (find_skip kCachePieceSeparator "|"%char (lit "#|") _ eq_refl b NI).
    cbn [findSub kCachePieceSeparator lit list_ascii_of_string app isPrefix Ascii.eqb option_map].
    apply firstn_app_exact. lia.
Qed.
Lemma lit_notin (s : string) c : existsb (Ascii.eqb c) (lit s) = false -> ~ In c (lit s).
Proof. intros E H. rewrite <- not_true_iff_false in E. apply E. apply existsb_exists. exists c. split; [exact H|apply Ascii.eqb_refl]. Qed.
Lemma base_of_piece b n ppg v : ~ In "|"%char b -> getBaseKey (createPieceKey b n ppg v) = b.
Proof.
  intros NI. unfold createPieceKey. cbv zeta. destruct ((if 0 <? ppg then n / ppg else 0) =? 0).
  - apply base_of_tail with (t1 := lit "body-" ++ dec v ++ lit "-" ++ dec n); [exact NI|]. right. split; [reflexivity|].
    intros X. repeat (apply in_app_or in X as [X|X]);
      try (apply lit_notin in X; [exact X|reflexivity]); apply dec_notin in X; [exact X|reflexivity|exact X|reflexivity].
  - apply base_of_tail with (t1 := []); [exact NI|]. left. eexists. reflexivity.
Qed.
Lemma base_of_header b v : ~ In "|"%char b -> getBaseKey (createPieceHeaderKey b v) = b.
Proof.
  intros NI. unfold createPieceHeaderKey.
  apply base_of_tail with (t1 := lit "header-" ++ dec v); [exact NI|]. right. split; [reflexivity|].
  intros X. apply in_app_or in X as [X|X]; [apply lit_notin in X; [exact X|reflexivity]|apply dec_notin in X; [exact X|reflexivity]].
Qed.
Lemma header_inj b1 v1 b2 v2 : createPieceHeaderKey b1 v1 = createPieceHeaderKey b2 v2 -> b1 = b2 /\ v1 = v2.
Proof.
  unfold createPieceHeaderKey. intros E.
  replace (b1 ++ kCachePieceSeparator ++ lit "header-" ++ dec v1) with
    ((b1 ++ kCachePieceSeparator ++ lit "header") ++ "-"%char :: dec v1) in E
    by (repeat (rewrite <- app_assoc; cbn [app]); reflexivity).
  replace (b2 ++ kCachePieceSeparator ++ lit "header-" ++ dec v2) with
    ((b2 ++ kCachePieceSeparator ++ lit "header") ++ "-"%char :: dec v2) in E
    by (repeat (rewrite <- app_assoc; cbn [app]); reflexivity).
  apply last_sep in E as [E EV]; try (apply dec_notin; reflexivity).
  apply dec_inj in EV. apply app_inv_tail in E. split; assumption.
Qed.

(** Escaping and the fetch loop. *)
From Verif Require Import Bytes Pieces_model Pieces_spec Pieces_proofs.
From Coq Require Import Ascii String.
Local Open Scope list_scope.

Definition sepStart (s : str) : option str :=
  match s with
  | c :: d :: e :: r => if Ascii.eqb c "|" && Ascii.eqb d "#" && Ascii.eqb e "|" then Some r else None
  | _ => None
  end.
Lemma doubled_eq s : doubled s =
  match sepStart s with
  | Some r => kCachePieceSeparator ++ kCachePieceSeparator ++ doubled r
  | None => match s with [] => [] | c :: t => c :: doubled t end
  end.
Proof.
  destruct s as [|c s]; [reflexivity|]. destruct s as [|d s].
  - cbn. destruct c as [[] [] [] [] [] [] [] []]; reflexivity.
  - destruct s as [|e s].
    + cbn [sepStart]. destruct c as [[] [] [] [] [] [] [] []]; try reflexivity.
      destruct d as [[] [] [] [] [] [] [] []]; reflexivity.
    + cbn [sepStart].
      destruct (Ascii.eqb_spec c "|") as [->|A].
      * destruct (Ascii.eqb_spec d "#") as [->|B].
        -- destruct (Ascii.eqb_spec e "|") as [->|C]; [reflexivity|].
           cbn [andb]. destruct e as [[] [] [] [] [] [] [] []]; try reflexivity. congruence.
        -- cbn [andb]. destruct d as [[] [] [] [] [] [] [] []]; try reflexivity. congruence.
      * cbn [andb]. destruct c as [[] [] [] [] [] [] [] []]; try reflexivity. congruence.
Qed.
Lemma sepStart_some s r : sepStart s = Some r -> s = kCachePieceSeparator ++ r.
Proof.
  destruct s as [|c [|d [|e s]]]; cbn; try discriminate.
  destruct (Ascii.eqb_spec c "|") as [->|A]; [|discriminate].
  destruct (Ascii.eqb_spec d "#") as [->|B]; [|discriminate].
  destruct (Ascii.eqb_spec e "|") as [->|C]; [|discriminate].
  intros H. injection H as <-. reflexivity.
Qed.
Lemma isPrefix_sep s : isPrefix kCachePieceSeparator s = match sepStart s with Some _ => true | None => false end.
Proof.
  change kCachePieceSeparator with ["|"; "#"; "|"]%char.
  destruct s as [|c [|d [|e s]]]; cbn [isPrefix sepStart]; rewrite ?andb_true_r, ?andb_false_r; try reflexivity.
  rewrite (Ascii.eqb_sym "|" c), (Ascii.eqb_sym "#" d), (Ascii.eqb_sym "|" e).
  destruct (Ascii.eqb c "|"), (Ascii.eqb d "#"), (Ascii.eqb e "|"); reflexivity.
Qed.
Lemma findSub_none s : findSub kCachePieceSeparator s = None -> doubled s = s.
Proof.
  induction s as [|c t IH]; intros H; [reflexivity|].
  rewrite doubled_eq. cbn [findSub] in H. rewrite isPrefix_sep in H.
  destruct (sepStart (c :: t)); [discriminate|].
  destruct (findSub kCachePieceSeparator t) eqn:E; [discriminate|]. f_equal. apply IH. reflexivity.
Qed.
Lemma findSub_some s i : findSub kCachePieceSeparator s = Some i ->
  doubled s = firstn i s ++ (kCachePieceSeparator ++ kCachePieceSeparator) ++ doubled (skipn (i + 3) s) /\
  (i + 3 <= List.length s)%nat.
Proof.
  revert i. induction s as [|c t IH]; intros i H; [discriminate|].
  rewrite doubled_eq. cbn [findSub] in H. rewrite isPrefix_sep in H.
  destruct (sepStart (c :: t)) as [r|] eqn:E.
  - injection H as <-. apply sepStart_some in E. rewrite E. split; [reflexivity|cbn; lia].
  - destruct (findSub kCachePieceSeparator t) as [j|] eqn:F; [|discriminate]. injection H as <-.
    destruct (IH j eq_refl) as (A & B). split; [|cbn; lia]. cbn [Nat.add firstn skipn]. rewrite A. reflexivity.
Qed.
Lemma split_ne f pat s : split f pat s <> [].
Proof. destruct f; cbn [split]; [discriminate|]. destruct (findSub pat s); discriminate. Qed.
Lemma join_split f s : (List.length s <= f)%nat ->
  join (kCachePieceSeparator ++ kCachePieceSeparator) (split f kCachePieceSeparator s) = doubled s.
Proof.
  revert s. induction f as [|f IH]; intros s H.
  - destruct s; [reflexivity|cbn in H; lia].
  - cbn [split]. destruct (findSub kCachePieceSeparator s) as [i|] eqn:E.
    + destruct (findSub_some s i E) as (A & B). rewrite A.
      change (List.length kCachePieceSeparator) with 3%nat.
      rewrite <- IH by (rewrite skipn_length; lia).
      pose proof (split_ne f kCachePieceSeparator (skipn (i + 3) s)) as NE.
      destruct (split f kCachePieceSeparator (skipn (i + 3) s)); [congruence|]. reflexivity.
    + cbn [join]. symmetry. apply findSub_none. exact E.
Qed.
Lemma escape_doubled s : escapeCacheKey s = doubled s.
Proof.
  unfold escapeCacheKey. pose proof (join_split (List.length s) s (le_n _)) as J.
  destruct s as [|c t]; [reflexivity|]. cbn [split List.length] in *.
  destruct (findSub kCachePieceSeparator (c :: t)) as [i|] eqn:E.
  - pose proof (split_ne (List.length t) kCachePieceSeparator
       (skipn (i + List.length kCachePieceSeparator) (c :: t))) as NE.
    destruct (split _ _ _); [congruence|]. exact J.
  - cbn [join] in J. exact J.
Qed.
Lemma doubled_hd s : hd_error (doubled s) = hd_error s.
Proof.
  rewrite doubled_eq. destruct (sepStart s) as [r|] eqn:E.
  - apply sepStart_some in E. rewrite E. reflexivity.
  - destruct s; reflexivity.
Qed.
Lemma doubled_sep t u : doubled t = kCachePieceSeparator ++ u -> sepStart t <> None.
Proof.
  intros H E. rewrite doubled_eq, E in H. destruct t as [|c t]; [discriminate|].
  injection H as -> H. pose proof (doubled_hd t) as D. rewrite H in D. cbn in D.
  destruct t as [|d t]; [discriminate|]. cbn in D. injection D as <-.
  rewrite doubled_eq in H. destruct (sepStart ("#"%char :: t)) as [r|] eqn:F.
  { apply sepStart_some in F. discriminate. }
  injection H as H. pose proof (doubled_hd t) as D. rewrite H in D. cbn in D.
  destruct t as [|e t]; [discriminate|]. cbn in D. injection D as <-. cbn in E. discriminate.
Qed.
Lemma doubled_inj s t : doubled s = doubled t -> s = t.
Proof.
  assert (G : forall n s t, (List.length s <= n)%nat -> doubled s = doubled t -> s = t).
  { clear. induction n as [|n IH]; intros s t L H.
    - destruct s; [|cbn in L; lia]. pose proof (doubled_hd t) as D. rewrite <- H in D.
      destruct t; [reflexivity|discriminate].
    - pose proof (doubled_eq s) as Es. pose proof (doubled_eq t) as Et.
      destruct (sepStart s) as [r|] eqn:A.
      + pose proof (doubled_sep t _ (eq_trans (eq_sym H) Es)) as B.
        destruct (sepStart t) as [q|] eqn:C; [|congruence].
        rewrite Es, Et in H. apply app_inv_head in H. apply app_inv_head in H.
        apply sepStart_some in A, C. rewrite A, C in *. f_equal. apply IH; [|exact H].
        rewrite app_length in L. change (List.length kCachePieceSeparator) with 3%nat in L. lia.
      + destruct (sepStart t) as [q|] eqn:C.
        { pose proof (doubled_sep s _ (eq_trans H Et)) as B. congruence. }
        rewrite Es, Et in H. destruct s as [|c s], t as [|d t]; try discriminate; [reflexivity|].
        injection H as -> H. f_equal. apply IH; [cbn in L; lia|exact H]. }
  apply (G (List.length s)). lia.
Qed.

Local Open Scope N_scope.
Lemma visited_ok (p : pieces) : endPiece p < two64 -> curFetching p <= endPiece p ->
  forall fuel, (N.to_nat (endPiece p - curFetching p) < fuel)%nat ->
  visited fuel p = map (fun k => curFetching p + N.of_nat k) (seq 0 (S (N.to_nat (endPiece p - curFetching p)))).
Proof.
  intros A B fuel. revert p A B. induction fuel as [|f IH]; intros p A B F; [lia|].
  cbn [visited]. unfold morePiecesToFetch at 1. destruct (N.ltb_spec (curFetching p) (endPiece p)) as [C|C].
  - assert (W : curFetching (updateFetchIndex p) = curFetching p + 1).
    { cbn. unfold add64, wrap64. change (2^64) with two64. apply N.mod_small. lia. }
    rewrite (IH (updateFetchIndex p)); [|exact A|rewrite W; cbn [endPiece updateFetchIndex withCur]; lia|rewrite W; cbn [endPiece updateFetchIndex withCur]; lia].
    rewrite W. cbn [endPiece updateFetchIndex withCur].
    replace (N.to_nat (endPiece p - curFetching p)) with (S (N.to_nat (endPiece p - (curFetching p + 1)))) by lia.
    cbn [seq map]. f_equal; [lia|]. f_equal; [lia|].
    rewrite <- (seq_shift _ 1%nat), map_map. apply map_ext. intros. lia.
  - replace (N.to_nat (endPiece p - curFetching p)) with O by lia. cbn. f_equal. lia.
Qed.

From Verif Require Import Bytes Item_model Item_spec Item_proofs NvmItem_model NvmItem_spec NvmItem_proofs.
Local Open Scope N_scope.
Local Opaque N.mul N.div N.modulo.

Lemma fillPart_spec u g b : N.of_nat (length (g u)) = u ->
  N.of_nat (length (bdata b)) <= u ->
  fillPart (Some u) g b =
    Some (Ok {| p_size := origAllocSize b; p_mem := bdata b ++ skipn (length (bdata b)) (g u) |}).
Proof.
  intros Hg Hl. unfold fillPart, wr. cbn [Nat.add].
  destruct (Nat.leb_spec (length (bdata b)) (length (g u))); [|lia].
  reflexivity.
Qed.

Section Chain.
Variables (isz pw : nat) (classes : list N) (g : N -> list byte) (pool ct ex : N).
Hypothesis Hg : forall u, N.of_nat (length (g u)) = u.
Hypothesis Hpool : pool < 256.
Hypothesis Hct : ct < 2 ^ 32.
Hypothesis Hex : ex < 2 ^ 32.
Definition readBack (u : N) (b : blob) : part :=
  {| p_size := origAllocSize b; p_mem := bdata b ++ skipn (length (bdata b)) (g u) |}.

Lemma addChain_spec bs b0 : forall l1 l2 ps chain,
  bs = b0 :: l1 ++ l2 ->
  N.of_nat (length bs) < 2 ^ 64 -> total bs < 2 ^ 32 ->
  Forall (fun b => origAllocSize b < 2 ^ 32) bs ->
  Forall2 (fun b p => exists u, usableChained isz pw classes (origAllocSize b) = Some u /\
             N.of_nat (length (bdata b)) <= u /\ p = readBack u b) l1 ps ->
  addChain isz pw classes g (encoding pool ct ex bs) (length l1) chain = Some (Ok (ps ++ chain)).
Proof.
  induction l1 as [|b l1 IH] using rev_ind; intros l2 ps chain E Hn HT Ho F.
  - inversion F; subst. reflexivity.
  - apply Forall2_app_inv_l in F as (ps1 & ps2 & F1 & F2 & ->).
    inversion F2 as [|? p ? ? (u & HU & HL & Hp) F3]; subst. inversion F3; subst.
    rewrite app_length. cbn [length]. rewrite Nat.add_1_r. cbn [addChain].
    assert (E : b0 :: (l1 ++ [b]) ++ l2 = (b0 :: l1) ++ b :: l2) by (cbn; now rewrite <- app_assoc).
    pose proof (getBlob_spec pool ct ex _ Hpool Hct Hex Hn HT Ho (b0 :: l1) b l2 E) as G.
    cbn [length] in G. rewrite G, HU, fillPart_spec by (auto).
    fold (readBack u b). rewrite <- (app_assoc ps1). cbn [app].
    apply IH with (l2 := b :: l2); try assumption; now rewrite <- app_assoc.
Qed.

Lemma createItem_spec klen b0 rest ps u0 :
  N.of_nat (length (b0 :: rest)) < 2 ^ 64 -> total (b0 :: rest) < 2 ^ 32 ->
  Forall (fun b => origAllocSize b < 2 ^ 32) (b0 :: rest) ->
  usableParent isz classes klen (origAllocSize b0) = Some u0 -> N.of_nat (length (bdata b0)) <= u0 ->
  Forall2 (fun b p => exists u, usableChained isz pw classes (origAllocSize b) = Some u /\
             N.of_nat (length (bdata b)) <= u /\ p = readBack u b) rest ps ->
  createItem isz pw classes klen g (encoding pool ct ex (b0 :: rest)) =
    Some (Ok {| i_pool := pool; i_creation := ct; i_expiry := ex;
                i_parent := readBack u0 b0; i_chain := ps |}).
Proof.
  intros Hn HT Ho HU HL F. unfold createItem.
  rewrite rd_num by assumption.
  pose proof (getBlob_spec pool ct ex _ Hpool Hct Hex Hn HT Ho [] b0 rest eq_refl) as G. cbn [length] in G.
  rewrite G, HU, fillPart_spec by auto.
  rewrite Nat2N.id. cbn [length]. rewrite Nat.sub_succ, Nat.sub_0_r.
  rewrite (addChain_spec (b0 :: rest) b0 rest [] ps []); try assumption; [|now rewrite app_nil_r].
  rewrite rd_pool, rd_creation, rd_expiry by assumption.
  rewrite app_nil_r. reflexivity.
Qed.
End Chain.

(** ** Sizes of parts *)
Lemma chained_fit isz pw classes size c : (0 < isz)%nat ->
  allocClass classes (chainedRequiredSize isz pw size) = Some c ->
  In c classes /\ N.of_nat isz + 2 * N.of_nat pw + size <= c.
Proof.
  intros Hi. unfold allocClass, chainedRequiredSize.
  replace (size + N.of_nat pw + N.of_nat isz + N.of_nat pw) with (N.of_nat isz + 2 * N.of_nat pw + size) by lia.
  destruct (_ <? _); [discriminate|]. destruct (_ =? 0); [discriminate|]. apply find_first.
Qed.
Lemma usableParent_ge isz classes klen size u : (0 < isz)%nat -> classesOk classes ->
  usableParent isz classes klen size = Some u -> size <= u /\ u < 2 ^ 32.
Proof.
  intros Hi HC. unfold usableParent. destruct (allocClass _ _) as [c|] eqn:E; [|discriminate].
  intros H. injection H as <-.
  apply allocClass_fit in E as [Hin Hf]; [|assumption].
  pose proof (proj1 (Forall_forall _ _) HC _ Hin) as H32. cbn beta in H32.
  rewrite required_spec. destruct (_ <? _) eqn:EL.
  - apply N.ltb_lt in EL. unfold two32, bytesNeeded in *. change (2 ^ 32) with 4294967296 in *. lia.
  - unfold bytesNeeded in *. lia.
Qed.
Lemma usableChained_ge isz pw classes size u : (0 < isz)%nat -> classesOk classes ->
  usableChained isz pw classes size = Some u -> size <= u /\ u < 2 ^ 32.
Proof.
  intros Hi HC. unfold usableChained. destruct (allocClass _ _) as [c|] eqn:E; [|discriminate].
  intros H. injection H as <-.
  apply chained_fit in E as [Hin Hf]; [|assumption].
  pose proof (proj1 (Forall_forall _ _) HC _ Hin) as H32. cbn beta in H32.
  unfold chainedRequiredSize. destruct (_ <? _) eqn:EL.
  - apply N.ltb_lt in EL. unfold two32 in *. change (2 ^ 32) with 4294967296 in *. lia.
  - lia.
Qed.

Definition blobsOf trunc it := makeBlob trunc (i_parent it) :: map (makeBlob trunc) (i_chain it).

Lemma makeBlob_length trunc p : p_size p <= N.of_nat (length (p_mem p)) ->
  length (bdata (makeBlob trunc p)) = if trunc then N.to_nat (p_size p) else length (p_mem p).
Proof.
  intros H. unfold makeBlob. cbn [bdata]. destruct trunc; [|reflexivity].
  rewrite firstn_length. lia.
Qed.

Lemma itemOk_parts isz pw classes klen it : (0 < isz)%nat -> classesOk classes ->
  itemOk isz pw classes klen it ->
  Forall (fun p => p_size p <= N.of_nat (length (p_mem p)) /\ N.of_nat (length (p_mem p)) < 2 ^ 32)
    (i_parent it :: i_chain it).
Proof.
  intros Hi HC [_ _ _ HP HF]. constructor.
  - eapply usableParent_ge; eassumption.
  - eapply Forall_impl; [|exact HF]. intros p Hp. cbn beta in Hp. eapply usableChained_ge; eassumption.
Qed.

Lemma stored_total trunc it :
  Forall (fun p => p_size p <= N.of_nat (length (p_mem p)) /\ N.of_nat (length (p_mem p)) < 2 ^ 32)
    (i_parent it :: i_chain it) ->
  total (blobsOf trunc it) = N.of_nat (storedBytes trunc it).
Proof.
  unfold storedBytes, blobsOf. change (makeBlob trunc (i_parent it) :: map (makeBlob trunc) (i_chain it))
    with (map (makeBlob trunc) (i_parent it :: i_chain it)).
  induction 1 as [|p l [Hp _] _ IH]; [reflexivity|].
  cbn [map fold_right]. rewrite total_cons, IH, makeBlob_length by assumption. lia.
Qed.

(** Storing and reading back into an allocator with classes [classes']. *)
Lemma roundtrip isz pw classes classes' klen trunc gm g it :
  (0 < isz)%nat -> classesOk classes -> classesOk classes' -> itemOk isz pw classes klen it ->
  (forall n, length (gm n) = n) -> (forall u, N.of_nat (length (g u)) = u) ->
  N.of_nat (length (i_chain it)) < 2 ^ 31 ->
  N.of_nat (storedBytes trunc it) < 2 ^ 32 ->
  (exists u, usableParent isz classes' klen (p_size (i_parent it)) = Some u /\
     N.of_nat (length (bdata (makeBlob trunc (i_parent it)))) <= u) ->
  Forall (fun p => exists u, usableChained isz pw classes' (p_size p) = Some u /\
     N.of_nat (length (bdata (makeBlob trunc p))) <= u) (i_chain it) ->
  exists m it', makeNvmItem trunc gm it = Some (Ok m) /\ nvmTotalSize m = Some (length m) /\
    createItem isz pw classes' klen g m = Some (Ok it') /\ sameItem it' it /\
    (trunc = false -> classes' = classes -> it' = it).
Proof.
  intros Hi HC HC' HOk Hgm Hg Hcl HS (u0 & HU0 & HL0) HF.
  pose proof (itemOk_parts _ _ _ _ _ Hi HC HOk) as HP.
  pose proof (stored_total trunc it HP) as HT. rewrite <- HT in HS.
  assert (Ho : Forall (fun b => origAllocSize b < 2 ^ 32) (blobsOf trunc it)).
  { unfold blobsOf. change (makeBlob trunc (i_parent it) :: map (makeBlob trunc) (i_chain it))
      with (map (makeBlob trunc) (i_parent it :: i_chain it)).
    apply Forall_map. eapply Forall_impl; [|exact HP]. intros p [? ?]. cbn. lia. }
  assert (Hn : N.of_nat (length (blobsOf trunc it)) < 2 ^ 64).
  { unfold blobsOf. cbn [length]. rewrite map_length.
    change (2 ^ 31) with 2147483648 in Hcl. change (2 ^ 64) with 18446744073709551616. lia. }
  assert (Hps : exists ps, Forall2 (fun b p => exists u,
      usableChained isz pw classes' (origAllocSize b) = Some u /\
      N.of_nat (length (bdata b)) <= u /\ p = readBack g u b) (map (makeBlob trunc) (i_chain it)) ps /\
      Forall2 (fun p q => exists u, usableChained isz pw classes' (p_size q) = Some u /\
         N.of_nat (length (bdata (makeBlob trunc q))) <= u /\
         p = readBack g u (makeBlob trunc q)) ps (i_chain it)).
  { clear -HF. induction HF as [|p l (u & HU & HL) _ (ps & F1 & F2)].
    - exists []. split; constructor.
    - exists (readBack g u (makeBlob trunc p) :: ps). split; constructor; try assumption.
      + exists u. auto.
      + exists u. auto. }
  destruct Hps as (ps & F1 & F2).
  destruct HOk as [Hpool Hct Hex Hup Huc].
  eexists. eexists.
  split; [|split; [|split; [|split]]].
  - unfold makeNvmItem. fold (blobsOf trunc it).
    apply ctor_spec; [discriminate|assumption|apply Hgm].
  - apply total_size_spec; try assumption. discriminate.
  - apply createItem_spec; try eassumption.
  - split; [reflexivity|]. split; [reflexivity|]. split; [reflexivity|]. cbn [i_parent i_chain].
    inversion HP as [|? ? [Hp1 Hp2] HPc]; subst.
    assert (SP : forall u p, p_size p <= N.of_nat (length (p_mem p)) ->
                   samePart (readBack g u (makeBlob trunc p)) p).
    { intros u p Hp. split; [reflexivity|]. unfold userBytes, readBack, makeBlob.
      cbn [p_size p_mem origAllocSize bdata].
      destruct trunc.
      - rewrite firstn_app, firstn_firstn, Nat.min_id.
        rewrite firstn_length. replace (N.to_nat (p_size p) - _)%nat with 0%nat by lia.
        cbn [firstn]. apply app_nil_r.
      - rewrite firstn_app. replace (N.to_nat (p_size p) - length (p_mem p))%nat with 0%nat by lia.
        cbn [firstn]. apply app_nil_r. }
    split; [now apply SP|].
    clear -F2 HPc SP. induction F2 as [|p q l l' (u & _ & _ & ->) _ IH]; [constructor|].
    inversion HPc as [|? ? [Hq _] HP']; subst. constructor; [now apply SP|auto].
  - intros -> ->. cbn [makeBlob origAllocSize bdata] in *.
    assert (RB : forall u p, u = N.of_nat (length (p_mem p)) ->
                   readBack g u (makeBlob false p) = p).
    { intros u p ->. unfold readBack, makeBlob. cbn [origAllocSize bdata].
      rewrite skipn_all2, app_nil_r by (specialize (Hg (N.of_nat (length (p_mem p)))); lia).
      now destruct p. }
    rewrite RB by congruence.
    assert (ps = i_chain it) as ->.
    { clear -F2 Huc RB. induction F2 as [|p q l l' (u & HU & _ & ->) _ IH]; [reflexivity|].
      inversion Huc as [|? ? Hq HP']; subst. rewrite Hq in HU. rewrite RB by congruence.
      f_equal. now apply IH. }
    destruct it; reflexivity.
Qed.

Lemma too_big isz pw classes klen trunc gm it :
  (0 < isz)%nat -> classesOk classes -> itemOk isz pw classes klen it ->
  (forall n, length (gm n) = n) -> 2 ^ 32 <= N.of_nat (storedBytes trunc it) ->
  makeNvmItem trunc gm it = Some Threw.
Proof.
  intros Hi HC HOk Hgm HS.
  pose proof (stored_total trunc it (itemOk_parts _ _ _ _ _ Hi HC HOk)) as HT. rewrite <- HT in HS.
  unfold makeNvmItem. fold (blobsOf trunc it). apply ctor_throws; [assumption|apply Hgm].
Qed.

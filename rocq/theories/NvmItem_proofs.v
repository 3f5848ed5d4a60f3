From Verif Require Import Bytes Item_model Item_spec Item_proofs NvmItem_model NvmItem_spec.
Local Open Scope N_scope.
Local Opaque N.mul N.div N.modulo.

Fixpoint infos (off : N) (bs : list blob) : list byte :=
  match bs with
  | [] => []
  | b :: r => le_enc 4 (origAllocSize b) ++ le_enc 4 (off + N.of_nat (length (bdata b)))
              ++ infos (off + N.of_nat (length (bdata b))) r
  end.
Definition datas (bs : list blob) : list byte := flat_map bdata bs.
Definition total (bs : list blob) : N := N.of_nat (length (datas bs)).
Definition encoding pool ct ex bs : list byte :=
  nvmHeader pool ct ex (length bs) ++ infos 0 bs ++ datas bs.

Lemma infos_length off bs : length (infos off bs) = (8 * length bs)%nat.
Proof.
  revert off; induction bs as [|b r IH]; intros off; cbn [infos length]; [reflexivity|].
  rewrite !app_length, !le_enc_length, IH. lia.
Qed.
Lemma infos_app off a b : infos off (a ++ b) = infos off a ++ infos (off + total a) b.
Proof.
  revert off; induction a as [|x a IH]; intros off; cbn [infos app].
  - unfold total. cbn. now rewrite N.add_0_r.
  - rewrite IH, <- !app_assoc. do 3 f_equal. f_equal. unfold total, datas. cbn [flat_map].
    rewrite app_length. lia.
Qed.
Lemma est_length bs : estimateVariableSize bs = (8 * length bs + length (datas bs))%nat.
Proof.
  induction bs as [|b r IH]; [reflexivity|]. unfold estimateVariableSize in *. cbn [fold_right].
  rewrite IH. unfold datas. cbn [flat_map length]. rewrite app_length. lia.
Qed.
Lemma hdr_length pool ct ex n : length (nvmHeader pool ct ex n) = 18%nat.
Proof. unfold nvmHeader. rewrite !app_length, !le_enc_length. reflexivity. Qed.

Lemma total_cons b r : total (b :: r) = N.of_nat (length (bdata b)) + total r.
Proof. unfold total, datas. cbn [flat_map]. rewrite app_length. lia. Qed.

Lemma fill_spec n : forall bs hd I1 GI D1 GD,
  length hd = 18%nat ->
  length I1 = (8 * (n - length bs))%nat -> (length bs <= n)%nat ->
  length GI = (8 * length bs)%nat -> length GD = length (datas bs) ->
  N.of_nat (length D1) + total bs < 2 ^ 32 ->
  fillBlobs (hd ++ I1 ++ GI ++ D1 ++ GD) n (n - length bs) (N.of_nat (length D1)) bs =
    Some (Ok (hd ++ I1 ++ infos (N.of_nat (length D1)) bs ++ D1 ++ datas bs)).
Proof.
  induction bs as [|b r IH]; intros hd I1 GI D1 GD Hh HI Hn HG HD HT.
  - cbn [fillBlobs infos datas flat_map]. destruct GI; [|cbn in HG; lia]. destruct GD; [|cbn in HD; lia].
    reflexivity.
  - cbn [fillBlobs length] in *. rewrite total_cons in HT.
    destruct (N.ltb_spec 4294967295 (N.of_nat (length D1) + N.of_nat (length (bdata b)))) as [C|_].
    { change (2 ^ 32) with 4294967296 in HT. lia. }
    destruct (split_at GI 8) as (gi & GI' & -> & Lgi); [lia|].
    destruct (split_at gi 4) as (gi1 & gi2 & -> & Lgi1); [lia|].
    unfold datas in HD. cbn [flat_map] in HD. rewrite app_length in HD. fold (datas r) in HD.
    destruct (split_at GD (length (bdata b))) as (gd & GD' & -> & Lgd); [lia|].
    rewrite !app_length in *. rewrite Nat2N.id. unfold nvmHdr.
    (* the data *)
    replace (hd ++ I1 ++ ((gi1 ++ gi2) ++ GI') ++ D1 ++ gd ++ GD')
      with ((hd ++ I1 ++ ((gi1 ++ gi2) ++ GI') ++ D1) ++ gd ++ GD') by (now rewrite <- !app_assoc).
    rewrite wr_app_mid; [| rewrite !app_length; lia | lia].
    (* origAllocSize *)
    replace ((hd ++ I1 ++ ((gi1 ++ gi2) ++ GI') ++ D1) ++ bdata b ++ GD')
      with ((hd ++ I1) ++ gi1 ++ (gi2 ++ GI' ++ D1 ++ bdata b ++ GD')) by (now rewrite <- !app_assoc).
    rewrite wr_app_mid; [| rewrite !app_length; lia | rewrite le_enc_length; lia].
    (* endOffset *)
    replace ((hd ++ I1) ++ le_enc 4 (origAllocSize b) ++ (gi2 ++ GI' ++ D1 ++ bdata b ++ GD'))
      with (((hd ++ I1) ++ le_enc 4 (origAllocSize b)) ++ gi2 ++ (GI' ++ D1 ++ bdata b ++ GD'))
      by (now rewrite <- !app_assoc).
    rewrite wr_app_mid; [| rewrite !app_length, le_enc_length; lia | rewrite le_enc_length; lia].
    specialize (IH hd (I1 ++ le_enc 4 (origAllocSize b) ++
       le_enc 4 (N.of_nat (length D1) + N.of_nat (length (bdata b)))) GI' (D1 ++ bdata b) GD').
    rewrite !app_length, !le_enc_length in IH.
    replace (N.of_nat (length D1 + length (bdata b)))
      with (N.of_nat (length D1) + N.of_nat (length (bdata b))) in IH by lia.
    replace (S (n - S (length r))) with (n - length r)%nat by lia.
    cbn [infos]. unfold datas. cbn [flat_map]. fold (datas r).
    rewrite <- !app_assoc in IH. rewrite <- !app_assoc.
    apply IH; lia.
Qed.

Lemma ctor_spec g pool ct ex bs :
  bs <> [] -> total bs < 2 ^ 32 -> length g = (nvmHdr + estimateVariableSize bs)%nat ->
  nvmItemCtor g pool ct ex bs = Some (Ok (encoding pool ct ex bs)).
Proof.
  intros Hb HT Hg. unfold nvmHdr in Hg. rewrite est_length in Hg. unfold nvmItemCtor.
  destruct (split_at g 18) as (gh & g1 & -> & Lh); [lia|]. rewrite app_length in Hg.
  change (gh ++ g1) with ([] ++ gh ++ g1).
  rewrite wr_app_mid; [|reflexivity|now rewrite hdr_length]. cbn [app].
  destruct (split_at g1 (8 * length bs)) as (gi & gd & -> & Li); [lia|]. rewrite app_length in Hg.
  assert (F : fillBlobs (nvmHeader pool ct ex (length bs) ++ gi ++ gd) (length bs) 0 0 bs =
              Some (Ok (encoding pool ct ex bs))).
  { pose proof (fill_spec (length bs) bs (nvmHeader pool ct ex (length bs)) [] gi [] gd) as F.
    rewrite hdr_length, Nat.sub_diag in F. cbn [length app] in F.
    apply F; try reflexivity; try lia. }
  destruct bs as [|b [|b2 r]]; [congruence| |exact F].
  clear F. rewrite total_cons in HT. unfold total, datas in HT. cbn [flat_map length] in HT.
  destruct (N.ltb_spec 4294967295 (N.of_nat (length (bdata b)))) as [C|_].
  { change (2 ^ 32) with 4294967296 in HT. lia. }
  cbn [length] in Li, Hg. unfold datas in Hg. cbn [flat_map] in Hg. rewrite app_nil_r in Hg.
  destruct (split_at gi 4) as (gi1 & gi2 & -> & Lgi1); [lia|]. rewrite app_length in Li, Hg.
  set (hd := nvmHeader pool ct ex (length [b])).
  assert (Lhd : length hd = 18%nat) by apply hdr_length.
  unfold nvmHdr.
  replace (hd ++ (gi1 ++ gi2) ++ gd) with ((hd ++ gi1 ++ gi2) ++ gd ++ [])
    by (now rewrite app_nil_r, <- !app_assoc).
  rewrite wr_app_mid; [| rewrite !app_length; lia | lia].
  replace ((hd ++ gi1 ++ gi2) ++ bdata b ++ []) with (hd ++ gi1 ++ (gi2 ++ bdata b))
    by (now rewrite app_nil_r, <- !app_assoc).
  rewrite wr_app_mid; [| lia | rewrite le_enc_length; lia].
  replace (hd ++ le_enc 4 (origAllocSize b) ++ gi2 ++ bdata b)
    with ((hd ++ le_enc 4 (origAllocSize b)) ++ gi2 ++ bdata b) by (now rewrite <- !app_assoc).
  rewrite wr_app_mid; [| rewrite app_length, le_enc_length; lia | rewrite le_enc_length; lia].
  unfold encoding. cbn [infos datas flat_map]. rewrite N.add_0_l, <- !app_assoc, !app_nil_r.
  reflexivity.
Qed.

Lemma fill_throws n : forall bs hd I1 GI D1 GD,
  length hd = 18%nat ->
  length I1 = (8 * (n - length bs))%nat -> (length bs <= n)%nat ->
  length GI = (8 * length bs)%nat -> length GD = length (datas bs) ->
  N.of_nat (length D1) < 2 ^ 32 ->
  2 ^ 32 <= N.of_nat (length D1) + total bs ->
  fillBlobs (hd ++ I1 ++ GI ++ D1 ++ GD) n (n - length bs) (N.of_nat (length D1)) bs = Some Threw.
Proof.
  change (2 ^ 32) with 4294967296.
  induction bs as [|b r IH]; intros hd I1 GI D1 GD Hh HI Hn HG HD Hlt HT.
  - unfold total in HT. cbn in HT. lia.
  - cbn [fillBlobs length] in *. rewrite total_cons in HT.
    destruct (N.ltb_spec 4294967295 (N.of_nat (length D1) + N.of_nat (length (bdata b)))) as [C|C].
    { reflexivity. }
    destruct (split_at GI 8) as (gi & GI' & -> & Lgi); [lia|].
    destruct (split_at gi 4) as (gi1 & gi2 & -> & Lgi1); [lia|].
    unfold datas in HD. cbn [flat_map] in HD. rewrite app_length in HD. fold (datas r) in HD.
    destruct (split_at GD (length (bdata b))) as (gd & GD' & -> & Lgd); [lia|].
    rewrite !app_length in *. rewrite Nat2N.id. unfold nvmHdr.
    replace (hd ++ I1 ++ ((gi1 ++ gi2) ++ GI') ++ D1 ++ gd ++ GD')
      with ((hd ++ I1 ++ ((gi1 ++ gi2) ++ GI') ++ D1) ++ gd ++ GD') by (now rewrite <- !app_assoc).
    rewrite wr_app_mid; [| rewrite !app_length; lia | lia].
    replace ((hd ++ I1 ++ ((gi1 ++ gi2) ++ GI') ++ D1) ++ bdata b ++ GD')
      with ((hd ++ I1) ++ gi1 ++ (gi2 ++ GI' ++ D1 ++ bdata b ++ GD')) by (now rewrite <- !app_assoc).
    rewrite wr_app_mid; [| rewrite !app_length; lia | rewrite le_enc_length; lia].
    replace ((hd ++ I1) ++ le_enc 4 (origAllocSize b) ++ (gi2 ++ GI' ++ D1 ++ bdata b ++ GD'))
      with (((hd ++ I1) ++ le_enc 4 (origAllocSize b)) ++ gi2 ++ (GI' ++ D1 ++ bdata b ++ GD'))
      by (now rewrite <- !app_assoc).
    rewrite wr_app_mid; [| rewrite !app_length, le_enc_length; lia | rewrite le_enc_length; lia].
    specialize (IH hd (I1 ++ le_enc 4 (origAllocSize b) ++
       le_enc 4 (N.of_nat (length D1) + N.of_nat (length (bdata b)))) GI' (D1 ++ bdata b) GD').
    rewrite !app_length, !le_enc_length in IH.
    replace (N.of_nat (length D1 + length (bdata b)))
      with (N.of_nat (length D1) + N.of_nat (length (bdata b))) in IH by lia.
    replace (S (n - S (length r))) with (n - length r)%nat by lia.
    rewrite <- !app_assoc in IH. rewrite <- !app_assoc.
    apply IH; lia.
Qed.

Lemma ctor_throws g pool ct ex bs :
  2 ^ 32 <= total bs -> length g = (nvmHdr + estimateVariableSize bs)%nat ->
  nvmItemCtor g pool ct ex bs = Some Threw.
Proof.
  intros HT Hg. unfold nvmHdr in Hg. rewrite est_length in Hg. unfold nvmItemCtor.
  destruct (split_at g 18) as (gh & g1 & -> & Lh); [lia|]. rewrite app_length in Hg.
  change (gh ++ g1) with ([] ++ gh ++ g1).
  rewrite wr_app_mid; [|reflexivity|now rewrite hdr_length]. cbn [app].
  destruct (split_at g1 (8 * length bs)) as (gi & gd & -> & Li); [lia|]. rewrite app_length in Hg.
  assert (F : fillBlobs (nvmHeader pool ct ex (length bs) ++ gi ++ gd) (length bs) 0 0 bs = Some Threw).
  { pose proof (fill_throws (length bs) bs (nvmHeader pool ct ex (length bs)) [] gi [] gd) as F.
    rewrite hdr_length, Nat.sub_diag in F. cbn [length app] in F.
    apply F; try reflexivity; try lia; try assumption. }
  destruct bs as [|b [|b2 r]]; [exact F| |exact F].
  rewrite total_cons in HT. unfold total, datas in HT. cbn [flat_map length] in HT.
  change (2 ^ 32) with 4294967296 in HT.
  destruct (N.ltb_spec 4294967295 (N.of_nat (length (bdata b)))) as [C|C]; [reflexivity|lia].
Qed.

Lemma total_app a b : total (a ++ b) = total a + total b.
Proof. unfold total, datas. rewrite flat_map_app, app_length. lia. Qed.

(** ** Reading back *)
Section Reading.
Variables (pool ct ex : N) (bs : list blob).
Hypothesis Hpool : pool < 256.
Hypothesis Hct : ct < 2 ^ 32.
Hypothesis Hex : ex < 2 ^ 32.
Hypothesis Hn : N.of_nat (length bs) < 2 ^ 64.
Hypothesis HT : total bs < 2 ^ 32.
Hypothesis Ho : Forall (fun b => origAllocSize b < 2 ^ 32) bs.
Let m := encoding pool ct ex bs.

Lemma e4 x : x < 2 ^ 32 -> x < 256 ^ N.of_nat 4.
Proof. exact (fun H => H). Qed.

Lemma rd_pool : nvmPoolId m = Some pool.
Proof.
  unfold nvmPoolId, m, encoding, nvmHeader, rd. cbn [app length Nat.add Nat.leb].
  cbn [slice firstn skipn le_dec]. f_equal. lia.
Qed.
Lemma rd_creation : nvmCreation m = Some ct.
Proof.
  unfold nvmCreation, m, encoding, nvmHeader. rewrite <- app_assoc, <- app_assoc.
  apply rd_app_mid; [reflexivity|now apply e4].
Qed.
Lemma rd_expiry : nvmExpiry m = Some ex.
Proof.
  assert (Hm : m = ([pool; 0] ++ le_enc 4 ct) ++ le_enc 4 ex ++
    (le_enc 8 (N.of_nat (length bs)) ++ infos 0 bs ++ datas bs)).
  { unfold m, encoding, nvmHeader. now rewrite <- !app_assoc. }
  unfold nvmExpiry. rewrite Hm.
  apply rd_app_mid; [rewrite app_length, le_enc_length; reflexivity|now apply e4].
Qed.
Lemma rd_num : nvmNumBlobs m = Some (N.of_nat (length bs)).
Proof.
  assert (Hm : m = ([pool; 0] ++ le_enc 4 ct ++ le_enc 4 ex) ++
    le_enc 8 (N.of_nat (length bs)) ++ (infos 0 bs ++ datas bs)).
  { unfold m, encoding, nvmHeader. now rewrite <- !app_assoc. }
  unfold nvmNumBlobs. rewrite Hm.
  apply rd_app_mid; [rewrite !app_length, !le_enc_length; reflexivity|exact Hn].
Qed.


Lemma rd_info pre b post : bs = pre ++ b :: post ->
  rd 4 m (nvmHdr + 8 * length pre)%nat = Some (origAllocSize b) /\
  rd 4 m (nvmHdr + 8 * length pre + 4)%nat = Some (total pre + N.of_nat (length (bdata b))).
Proof.
  intros E. assert (HB : origAllocSize b < 2 ^ 32).
  { rewrite E in Ho. apply Forall_app in Ho as [_ Ho']. now inversion Ho'. }
  assert (HE : total pre + N.of_nat (length (bdata b)) < 2 ^ 32).
  { rewrite E, total_app, total_cons in HT. lia. }
  assert (Hm : m = (nvmHeader pool ct ex (length bs) ++ infos 0 pre) ++ le_enc 4 (origAllocSize b) ++
     le_enc 4 (total pre + N.of_nat (length (bdata b))) ++
     (infos (total pre + N.of_nat (length (bdata b))) post ++ datas bs)).
  { unfold m, encoding. rewrite E at 2. rewrite infos_app, N.add_0_l. cbn [infos].
    now rewrite <- !app_assoc. }
  rewrite Hm. split.
  - apply rd_app_mid; [rewrite app_length, hdr_length, infos_length; reflexivity|now apply e4].
  - rewrite (app_assoc _ (le_enc 4 (origAllocSize b))). apply rd_app_mid; [|now apply e4].
    rewrite !app_length, hdr_length, infos_length, le_enc_length. unfold nvmHdr. lia.
Qed.

Lemma getBlob_spec pre b post : bs = pre ++ b :: post ->
  nvmGetBlob m (length pre) = Some (Ok b).
Proof.
  intros E. unfold nvmGetBlob. rewrite rd_num.
  assert (L : length bs = (length pre + S (length post))%nat) by (rewrite E, app_length; reflexivity).
  destruct (N.leb_spec (N.of_nat (length bs)) (N.of_nat (length pre))); [lia|].
  destruct (rd_info pre b post E) as [R1 R2]. rewrite R1, R2.
  assert (RB : match length pre with O => Some 0 | S i => rd 4 m (nvmHdr + 8 * i + 4)%nat end = Some (total pre)).
  { destruct pre as [|p0 pre0] eqn:EP using rev_ind; [reflexivity|].
    clear IHpre0. rewrite app_length. cbn [length]. rewrite Nat.add_1_r.
    destruct (rd_info pre0 p0 (b :: post)) as [_ R].
    { rewrite E. now rewrite <- app_assoc. }
    rewrite R. f_equal. rewrite total_app, total_cons. unfold total at 3. cbn. lia. }
  rewrite RB.
  destruct (N.ltb_spec (total pre + N.of_nat (length (bdata b))) (total pre)); [lia|].
  replace (total pre + N.of_nat (length (bdata b)) - total pre) with (N.of_nat (length (bdata b))) by lia.
  rewrite !Nat2N.id.
  assert (Hm : m = (nvmHeader pool ct ex (length bs) ++ infos 0 bs ++ datas pre) ++ bdata b ++ datas post).
  { unfold m, encoding. rewrite E at 3. unfold datas. rewrite flat_map_app. cbn [flat_map].
    now rewrite <- !app_assoc. }
  rewrite Hm. rewrite rd_bytes_app_mid; [|rewrite !app_length, hdr_length, infos_length; unfold total, nvmHdr; lia|reflexivity].
  destruct b; reflexivity.
Qed.

Lemma total_size_spec : bs <> [] -> nvmTotalSize m = Some (length m).
Proof.
  intros Hb. unfold nvmTotalSize. rewrite rd_num, Nat2N.id.
  destruct (exists_last Hb) as (bs0 & b0 & E).
  destruct (rd_info bs0 b0 [] E) as [_ R].
  assert (L : (length bs - 1)%nat = length bs0) by (rewrite E, app_length; cbn [length]; lia).
  rewrite L, R. f_equal. unfold m, encoding. rewrite !app_length, hdr_length, infos_length, E, app_length.
  unfold datas. rewrite flat_map_app, app_length. cbn [flat_map length]. rewrite app_length. cbn [length].
  unfold total, datas, nvmHdr. lia.
Qed.
End Reading.

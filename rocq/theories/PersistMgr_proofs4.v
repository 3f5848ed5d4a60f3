(** What goes wrong, and a small library. *)
From Coq Require Import List Arith ZArith Bool Lia.
Import ListNotations.
From Verif Require Import PersistMgr_model PersistMgr_spec PersistMgr_proofs1 PersistMgr_proofs2 PersistMgr_proofs3.
Open Scope Z_scope.

Lemma rfiles0 : forall L nf s acc, rfiles L nf 0 s acc = Some (Some (acc ++ repeat [] nf, s)).
Proof.
  induction nf; intros; cbn [rfiles rblocks repeat]; [rewrite app_nil_r; reflexivity|].
  rewrite IHnf, <- app_assoc. reflexivity.
Qed.

Lemma ceil_pos : forall L x, goodLib L -> 0 < x -> (0 < ceil L x)%nat.
Proof. intros L x G H. pose proof (ceil_spec L x G ltac:(lia)). destruct (ceil L x); lia. Qed.

Theorem big_navy : forall L old c s f fs, goodLib L -> goodCache L c -> 0 < navySize c -> navySize c mod 2 ^ 32 = 0 ->
  navy c = f :: fs -> save L c = Some s ->
  (crc L (chunk L 0 f) mod 256 <> 30 -> crc L (chunk L 0 f) mod 256 <> 31 -> restore L old (length (navy c)) s = RFail) /\
  (crc L (chunk L 0 f) mod 256 = 31 -> exists left, left <> [] /\
     restore L old (length (navy c)) s =
     ROk (mkR (rNvm (same L old c)) (rSegs (same L old c)) (Some (repeat [] (length (navy c))))) left).
Proof.
  intros L old c s f fs G C N0 N32 Ef E.
  destruct (restore_pre L exact old c s [] (length (navy c)) G C ltac:(intros t j d; reflexivity) E) as [fu R].
  rewrite app_nil_r in R. rewrite R. clear R.
  assert (OK : okSegs L exact c = true).
  { pose proof (okAll_exact L c) as O. unfold okAll in O. unfold okSegs. rewrite !andb_true_iff in O. rewrite !andb_true_iff. tauto. }
  rewrite OK. destruct C as [_ _ CN]. destruct (gB L G) as [B0 B1].
  assert (BB : Z.of_nat (blk L) * (2 ^ 31 - 1) < 2 ^ 63) by (change (2^63) with (2^32 * 2^31); nia).
  rewrite rloop_step by (auto; lia). cbn [section].
  assert (Z0 : blocks32 L (navySize c) = 0).
  { unfold blocks32. rewrite N32. rewrite Zmod_0_l. reflexivity. }
  rewrite Z0. cbn [iters Z.ltb Z.compare Z.pow Z.pow_pos Pos.iter Z.mul Pos.mul Z.to_nat]. change (iters 0) with 0%nat. rewrite rfiles0. cbn [app].
  destruct (blocks64_ok L (navySize c) G CN) as [E64 C31]. rewrite E64. rewrite iters_small by exact C31.
  pose proof (ceil_pos L (navySize c) G N0) as CP. destruct (ceil L (navySize c)) as [|n]; [lia|].
  unfold upto7. rewrite arrived_exact by auto. cbn [rNvm rSegs].
  assert (HD : exists tl, tl <> [] /\ navyBytes L exact (S n) 0 (navy c) ++ [31] = crc L (chunk L 0 f) mod 256 :: tl).
  { rewrite Ef. unfold navyBytes. cbn [length seq combine flat_map fst snd]. unfold blocksOf at 1.
    cbn [seq flat_map]. unfold block at 1. cbn [enc app]. eexists. split; [|reflexivity]. discriminate. }
  destruct HD as [tl [NE ->]]. split.
  - intros A B. apply Z.eqb_neq in A, B. rewrite A, B. reflexivity.
  - intros A. rewrite A. cbn [Z.eqb Pos.eqb]. exists tl. auto.
Qed.

(** A library with blocks of b bytes. *)
Definition exL (b : nat) : lib :=
  mkLib b (fun d => fold_right Z.add 0 d mod 2 ^ 32) (fun d => repeat 0 (b - length d))
        (fun t x => Z.of_nat t :: enc 8 x) (fun l => match l with t :: r => if (t <? 0) || (8 <? t) then None else Some (Z.to_nat t, dec r) | [] => None end) 9
        [7] (fun v => match v with [7] => true | _ => false end) [9] (fun v => match v with [9] => true | _ => false end).

Lemma exL_good : forall b, (0 < b)%nat -> Z.of_nat b < 2 ^ 32 -> goodLib (exL b).
Proof.
  intros b H1 H2. constructor; cbn -[enc dec Z.pow].
  - auto.
  - intros. apply Z.mod_pos_bound. reflexivity.
  - intros. apply repeat_length.
  - intros. rewrite enc_len. reflexivity.
  - intros t x Ht Hx. destruct (Z.ltb_spec (Z.of_nat t) 0); [lia|]. destruct (Z.ltb_spec 8 (Z.of_nat t)); [lia|].
    cbn [orb]. rewrite Nat2Z.id, (dec_enc 8); [reflexivity|]. change (256 ^ Z.of_nat 8) with (2 * 2 ^ 63). lia.
  - auto.
  - repeat split; reflexivity.
Qed.

Definition exC : cache := mkC [5; 5] [1; 2; 3] [4] [5; 6] [1; 2; 3; 4; 5] [[1; 2; 3]; [10; 20; 30; 40; 50]] 4.
Lemma exC_good : goodCache (exL 2) exC /\ below4G (exL 2) exC.
Proof. split; [constructor|]; cbn; unfold sized, below4G; cbn; lia. Qed.

(** the same with navy files of 2^32 bytes, whose first block has the checksum k *)
Definition exBig (k : Z) : cache := mkC [5; 5] [1; 2; 3] [4] [5; 6] [1; 2; 3; 4; 5] [[k]; [10]] (2 ^ 32).
Lemma exBig_good : forall k, goodCache (exL 4) (exBig k).
Proof. intros. constructor; cbn -[Z.mul Z.pow]; unfold sized; cbn -[Z.mul Z.pow Z.of_nat]; cbn; lia. Qed.

Lemma big_run : forall k, exists s, save (exL 4) (exBig k) = Some s.
Proof. intros. apply save_some, exBig_good. Qed.

(** position of the mark behind the first section of memory *)
Definition setAt (n : nat) (v : Z) (l : list Z) : list Z := firstn n l ++ v :: skipn (S n) l.
Definition swap (i j w : nat) (l : list Z) : list Z :=
  firstn i l ++ firstn w (skipn j l) ++ firstn (j - i - w) (skipn (i + w) l) ++ firstn w (skipn i l) ++ skipn (j + w) l.

Lemma empty_state : forall L old c, goodLib L -> goodCache L c -> below4G L c -> nvmState c = [] -> exists s r,
  save L c = Some s /\ restore L old (length (navy c)) s = ROk r [] /\ rNvm r = old.
Proof.
  intros L old c G C F E. destruct (round_trip L old c G C F) as [s [Hs R]].
  exists s, (same L old c). split; [auto|]. specialize (R []). rewrite app_nil_r in R. split; [exact R|]. unfold same. rewrite E. reflexivity.
Qed.

Lemma early_end : exists s r left, save (exL 2) exC = Some s /\ nth 72 s 0 = 30 /\
  restore (exL 2) None 2 (setAt 72 31 s) = ROk r left /\
  rSegs r = [(3%nat, info exC)] /\ rNavy r = None /\ left <> [].
Proof.
  destruct (save (exL 2) exC) as [s|] eqn:E; vm_compute in E; [|discriminate]. injection E as <-.
  do 3 eexists. split; [reflexivity|]. split; [reflexivity|]. split; [vm_compute; reflexivity|].
  split; [reflexivity|]. split; [reflexivity|]. discriminate.
Qed.
Lemma long_block : exists s, save (exL 2) exC = Some s /\ nth 127 s 0 = 0 /\ restore (exL 2) None 2 (setAt 127 1 s) = RUB.
Proof.
  destruct (save (exL 2) exC) as [s|] eqn:E; vm_compute in E; [|discriminate]. injection E as <-.
  eexists. split; [reflexivity|]. split; reflexivity.
Qed.
Lemma swapped : exists s r, save (exL 2) exC = Some s /\ restore (exL 2) None 2 (swap 122 132 10 s) = ROk r [] /\
  In (6%nat, [3; 4; 1; 2; 5]) (rSegs r) /\ data exC = [1; 2; 3; 4; 5].
Proof.
  destruct (save (exL 2) exC) as [s|] eqn:E; vm_compute in E; [|discriminate]. injection E as <-.
  do 2 eexists. split; [reflexivity|]. split; [vm_compute; reflexivity|]. split; [cbn; tauto|reflexivity].
Qed.
Lemma big_lost : forall old, exists s, save (exL 4) (exBig 31) = Some s /\ exists r left, left <> [] /\
  restore (exL 4) old 2 s = ROk r left /\ rNavy r = Some [[]; []].
Proof.
  intros old. destruct (big_run 31) as [s E]. exists s. split; [exact E|].
  destruct (big_navy (exL 4) old (exBig 31) s [31] [[10]]) as [_ H]; auto.
  - apply exL_good; cbn; lia.
  - apply exBig_good.
  - reflexivity.
  - destruct H as [left [N R]]; [reflexivity|]. do 2 eexists. split; [exact N|]. split; [exact R|reflexivity].
Qed.
Lemma big_fails : forall old, exists s, save (exL 4) (exBig 1) = Some s /\ restore (exL 4) old 2 s = RFail.
Proof.
  intros old. destruct (big_run 1) as [s E]. exists s. split; [exact E|].
  destruct (big_navy (exL 4) old (exBig 1) s [1] [[10]]) as [H _]; auto.
  - apply exL_good; cbn; lia.
  - apply exBig_good.
  - reflexivity.
  - apply H; vm_compute; discriminate.
Qed.

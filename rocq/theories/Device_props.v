(** * C34: the (striped) device is one flat byte array. *)
From Coq Require Import List NArith Lia Bool.
Import ListNotations.
From Verif Require Import Device_model Device_spec Device_proofs Device_proofs2.
Local Open Scope N_scope.

(** The mapping of logical bytes to (file, offset) is a bijection between the device and the files
    (file size a multiple [n] of the stripe size, as the constructor requires). *)
Theorem C34_mapping_bijective g n : valid g -> 1 < numFiles g ->
  (forall o, o < numFiles g * (n * stripeSize g) -> fst (place g o) < numFiles g /\ snd (place g o) < n * stripeSize g) /\
  (forall o1 o2, place g o1 = place g o2 -> o1 = o2) /\
  (forall f x, f < numFiles g -> x < n * stripeSize g -> exists o, o < numFiles g * (n * stripeSize g) /\ place g o = (f, x)).
Proof.
  intros V H. exact (conj (fun o => place_bound g n o V H) (conj (place_inj g V) (fun f x => place_onto g n f x V H))).
Qed.

(** A request is split into operations that cover its bytes without gap ... *)
Theorem C34_split_covers g off size : valid g ->
  exists l, io_req g off size 0 = Some l /\
  forall i, i < size -> exists o, In o l /\ opos o <= i < opos o + osize o /\
    place g (off + i) = (fd o, fofs o + (i - opos o)).
Proof.
  intro V. destruct (req_some g V off size 0) as [l E]. exists l. split; auto.
  intros i Hi. destruct (tiles_cover _ _ _ _ _ (req_tiles g V _ _ _ _ E) i Hi) as (o & A & B & C).
  rewrite !N.add_0_l in *. eauto.
Qed.
(** ... or overlap, in buffer order and inside the buffer. *)
Theorem C34_split_disjoint g off size l : valid g -> io_req g off size 0 = Some l ->
  (forall o, In o l -> opos o + osize o <= size) /\
  (forall i j, (i < j < length l)%nat ->
    opos (nth i l (mkOp 0 0 0 0)) + osize (nth i l (mkOp 0 0 0 0)) <= opos (nth j l (mkOp 0 0 0 0))).
Proof.
  intros V E. apply (req_tiles g V) in E. split.
  - intros o Ho. exact (proj2 (tiles_inside _ _ _ _ _ _ E Ho)).
  - exact (tiles_once _ _ _ _ _ E).
Qed.

(** After any history of aligned writes (some failing, with any damage inside their own range), a
    successful read of any range, aligned or not, returns in every byte the last value written. *)
Theorem C34_read_after_write g fs h off size ft l :
  valid g -> good_enc g -> run g fs h ->
  off mod ioAlign g + size + (ioAlign g - 1) < U32 ->
  read g fs off size ft = Some (Some l) ->
  length l = N.to_nat size /\
  forall i b, i < size -> expect h (off + i) = Some b -> nth (N.to_nat i) l 0 = b.
Proof.
  intros V G R HU H. unfold good_enc in G.
  assert (X : exists E D, match enc g with None => True | Some e => blockwise (ioAlign g) e E D end).
  { destruct (enc g); [exact G|]. now exists (fun _ b => b), (fun _ b => b). }
  destruct X as (E & D & B). destruct (read_view g V E D B _ _ _ _ _ HU H) as [Ll Hv]. split; auto.
  intros i b Hi Hb. rewrite Hv by auto. exact (run_expect g V E D B _ _ R _ _ Hb).
Qed.

(** Writes and reads always terminate, and without I/O errors (and encryption) reads succeed. *)
Theorem C34_terminates g fs off size data ft : valid g ->
  (exists r, write g fs off data ft = Some r) /\
  (exists r, read g fs off size ft = Some r /\ ((forall i j, ft i j = None) -> enc g = None -> r <> None)).
Proof.
  intro V. split; [exact (write_some g fs off data ft V)|]. unfold read.
  destruct (readInternal_some g V fs (off - off mod ioAlign g)
    (((off mod ioAlign g + size + (ioAlign g - 1)) / ioAlign g * ioAlign g) mod U32) ft) as (r & -> & K).
  destruct r as [l|]; eexists; (split; [reflexivity|]); auto. congruence.
Qed.

(** Guard on the size: a 4 GiB write with no maximum write size reports success and writes nothing. *)
Theorem C34_huge_write_refuted g fs off data :
  valid g -> enc g = None -> maxWriteSize g = 0 -> N.of_nat (length data) = 2 ^ 32 ->
  exists fs', write g fs off data (fun _ _ => None) = Some (fs', true) /\
    forall o, fs' (fst (place g o)) (snd (place g o)) = fs (fst (place g o)) (snd (place g o)).
Proof. exact (huge_write g fs off data). Qed.

(** The documented contract of the encryptor (decrypting the same range with the same salt
    restores it) is not enough: a read that does not coincide with a write gets garbage. *)
Theorem C34_encryptor_contract_refuted :
  exists g e, valid g /\ enc g = Some e /\
    (forall d s d', encrypt e d s = Some d' -> length d' = length d /\ decrypt e d' s = Some d) /\
    exists fs h l, run g fs h /\ read g fs 4 4 (fun _ _ => None) = Some (Some l) /\
      expect h 4 = Some 5 /\ nth 0 l 0 = 1.
Proof.
  pose (e := mkEnc (fun d s => Some (map (fun b => b + s) d)) (fun d s => Some (map (fun b => b - s) d))).
  pose (g := mkCfg 1 0 4 0 0 (Some e)). exists g, e.
  split; [|split; [reflexivity|split]].
  - cbv [valid ioAlign numFiles maxWriteSize maxIOSize stripeSize g U32]. repeat split; try lia; now exists 0.
  - intros d s d' H. cbn in H. inversion H; subst. split; [apply map_length|]. cbn. rewrite map_map. f_equal.
    rewrite <- (map_id d) at 2. apply map_ext. intro; lia.
  - destruct (write g (fun _ _ => 0) 0 [1;2;3;4;5;6;7;8] (fun _ _ => None)) as [[fs' []]|] eqn:E; [| |]; try (vm_compute in E; discriminate).
    exists fs', [mkWr 0 [1;2;3;4;5;6;7;8] true], [1;2;3;4]. split; [|split; [|split; reflexivity]].
    + eapply run_write; [constructor| |exact E]. repeat split; [now exists 0|now exists 2].
    + vm_compute in E. inversion E. reflexivity.
Qed.

(** Two striped files, stripe 4, writes chunked by 8: write 12 bytes at 4, read 6 back at 5. *)
Example C34_ex :
  let g := mkCfg 2 4 4 8 8 None in
  valid g /\ good_enc g /\
  exists fs, run g fs [mkWr 4 [1;2;3;4;5;6;7;8;9;10;11;12] true] /\
    read g fs 5 6 (fun _ _ => None) = Some (Some [2;3;4;5;6;7]).
Proof.
  intro g. split; [|split; [exact I|]].
  - cbv [valid ioAlign numFiles maxWriteSize maxIOSize stripeSize g U32]. repeat split; try lia; now exists 2.
  - destruct (write g (fun _ _ => 0) 4 [1;2;3;4;5;6;7;8;9;10;11;12] (fun _ _ => None)) as [[fs' []]|] eqn:E; try (vm_compute in E; discriminate).
    exists fs'. split.
    + eapply run_write; [constructor| |exact E]. repeat split; [now exists 1|now exists 3].
    + vm_compute in E. inversion E. reflexivity.
Qed.

Print Assumptions C34_mapping_bijective.
Print Assumptions C34_split_covers.
Print Assumptions C34_split_disjoint.
Print Assumptions C34_read_after_write.
Print Assumptions C34_terminates.
Print Assumptions C34_huge_write_refuted.
Print Assumptions C34_encryptor_contract_refuted.

(** What a user relies on (C14): each key has its last written value and a
    deadline in unbounded time; a value is alive until its deadline. *)
From Verif Require Import Bytes Expiry_model.
Local Open Scope N_scope.

(** [None]: never expires. *)
Definition deadline := option N.
Definition alive (d : deadline) (now : N) : Prop :=
  match d with None => True | Some t => now <= t end.

(** The user's view: last value written and its deadline; evictions, reaping
    and lookups do not appear. *)
Definition uview := N -> option (N * deadline).

(** Effect of an operation and its result on the view. *)
Definition uapply (hf : bool) (u : uview) (o : op) (r : res) : uview :=
  match o with
  | OInsert k v ttl cr clk =>
      upd u k (Some (v, if ttl =? 0 then None
                        else Some ((if cr =? 0 then clk else cr) + ttl)))
  | OInsertIfAbsent k v ttl cr clk =>
      match r with
      | RBool true => upd u k (Some (v, if ttl =? 0 then None
                                        else Some ((if cr =? 0 then clk else cr) + ttl)))
      | _ => u
      end
  | OSetExpiry _ k e _ _ _ =>
      match r, u k with
      | RBool true, Some (v, _) => upd u k (Some (v, if e =? 0 then None else Some e))
      | _, _ => u
      end
  | OExtend _ k ttl _ _ now _ =>
      match r, u k with
      | RBool true, Some (v, _) => upd u k (Some (v, Some (now + ttl)))
      | _, _ => u
      end
  | ORemove k => upd u k None
  | _ => u
  end.

Fixpoint uviewOf (hf : bool) (s : st) (u : uview) (os : list op) : uview :=
  match os with
  | [] => u
  | o :: r => uviewOf hf (snd (step hf s o)) (uapply hf u o (fst (step hf s o))) r
  end.
Definition view (hf : bool) (os : list op) : uview := uviewOf hf init (fun _ => None) os.

(** The 32-bit side condition: no expiry time leaves 32 bits, clocks are not 0. *)
Definition fits (o : op) : Prop :=
  match o with
  | OInsert _ _ ttl cr clk | OInsertIfAbsent _ _ ttl cr clk =>
      (if cr =? 0 then clk else cr) + ttl < 2 ^ 32
  | OExtend _ _ ttl _ _ now _ => 0 < now /\ now + ttl < 2 ^ 32
  | OSetExpiry _ _ e _ _ _ => e < 2 ^ 32
  | _ => True
  end.

(** The clock readings an operation makes, in order. *)
Definition clocks (o : op) : list N :=
  match o with
  | OInsert _ _ _ _ clk | OInsertIfAbsent _ _ _ _ clk => [clk]
  | OFind _ _ c1 c2 => [c1; c2]
  | OFindFast _ _ c => [c]
  | OSetExpiry _ _ _ c1 c2 _ => [c1; c2]
  | OExtend _ _ _ c1 c2 c3 _ => [c1; c2; c3]
  | OEvict _ _ c _ => [c]
  | OReap _ _ c0 c => [c0; c]
  | _ => []
  end.

(** Clocks never go backwards. *)
Fixpoint nondecreasing (from : N) (cs : list N) : Prop :=
  match cs with [] => True | c :: r => from <= c /\ nondecreasing c r end.

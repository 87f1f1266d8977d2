(** Model of exec::merge_each: a sequence of sequences is merged into one sequence
    (/repo/include/exec/sequence/merge_each.hpp L75-154, L174-222, L329-536,
    L547-635, L705-799, L1001-1086, L1127-1204).

    Agents: number 0 is the outer sequence; every item of the outer sequence (an
    operation that produces a nested sequence and then runs it) and every item of
    a nested sequence (a nested value) is an agent of its own, on a thread of its
    own.  Any number of them, created while the merge runs.  One step per atomic
    access, per stop request and per completion of an item; sequential
    consistency.
    The sequences are the user's; they keep to their contract: items are started
    only while the sequence runs, and a sequence completes only after the next
    operations of all of its items have completed.  When the next operation of an
    item has completed, its sequence may destroy it.
    Simplified: stop requests and callbacks are linearisable (C15-C17); storing an
    error does not throw; the error item that reports a nested error (L479-518) is
    delivered in one step with the completion that follows it. *)
From Coq Require Import List ZArith Bool Arith.
From Verif Require Import Conc.
Import ListNotations.
Set Implicit Arguments.
Open Scope Z_scope.

Definition err := Z.

(** __completion_t L159-164 *)
Inductive compl := CStarted | CError | CStopped.

(** What is left after the next receiver of an item was completed. *)
Inductive cont := CDec | CBrk | CFail (e : err).

(** [P0]: not started; [PChk]: outer only, at L1190; [PInc]: item, at ++active
    L410/L423; [PItem]: the item of the outer sequence runs, no nested sequence
    yet L1081; [PRun]: the sequence or the nested value runs; [PNext c]: about to
    complete the next receiver; [PFail e]: at exchange L355/L431; [PReqF e]: at
    request_stop L360/L436; [PStore e]: at L367/L207; [PBrk]: at
    compare_exchange L387; [PReqB]: at L391; [PDec]: at L461; [PUnr]: at L463;
    [PFin]: at L464; [PEnd]. *)
Inductive pc :=
| P0 | PChk | PInc | PItem | PRun | PNext (c : cont)
| PFail (e : err) | PReqF (e : err) | PStore (e : err) | PBrk | PReqB | PDec | PUnr | PFin | PEnd.

(** the outer sequence, an item of it, an item of the nested sequence [p] *)
Inductive kind := KOuter | KSeq | KVal (p : nat).

Record agent := mka {
  kd : kind;
  ap : pc;
  nx : bool;       (* the next receiver of this item has been completed *)
  via : bool;      (* KSeq: the nested sequence has been subscribed *)
  alive : bool     (* its operation state has not been destroyed *)
}.

(** What the merged sequence completes with: set_value; set_error; an item that
    reports an error, followed by set_value or set_stopped; set_stopped. *)
Inductive done := DValue | DError (e : err) | DItem (e : err) | DStopped.

(** How a user's operation completes. *)
Inductive result := ROk | RErr (e : err) | RStop.

Inductive event :=
| EUser (i : nat) (r : result)    (* the operation of agent i completes *)
| EErr (i : nat) (e : err)        (* an error arrives (exchange L355/L431) *)
| ENext (i : nat)                 (* the next receiver of item i completes *)
| EDone (d : done)                (* the receiver of the merged sequence completes *)
| EDangling (i : nat).            (* an object in a destroyed operation state is read *)

Record state := mk {
  ags : list agent;
  active : Z;                (* __active_ *)
  cm : compl;                (* __completion_ *)
  ex : option err;           (* __ex_ *)
  stor : option err;         (* __error_storage_ *)
  nstop : bool;              (* __nested_stop_.__stop_source_ *)
  preq : bool;               (* stop requested by the receiver's token *)
  cb : bool;                 (* __on_stop_ registered *)
  unst : bool;               (* the receiver's token is unstoppable *)
  log : list event           (* newest first *)
}.

Definition set_ag s i v := mk (upd (ags s) i v) (active s) (cm s) (ex s) (stor s) (nstop s) (preq s) (cb s) (unst s) (log s).
Definition add_ag s v := mk (ags s ++ [v]) (active s) (cm s) (ex s) (stor s) (nstop s) (preq s) (cb s) (unst s) (log s).
Definition set_active s v := mk (ags s) v (cm s) (ex s) (stor s) (nstop s) (preq s) (cb s) (unst s) (log s).
Definition set_cm s v := mk (ags s) (active s) v (ex s) (stor s) (nstop s) (preq s) (cb s) (unst s) (log s).
Definition set_ex s v := mk (ags s) (active s) (cm s) (Some v) (stor s) (nstop s) (preq s) (cb s) (unst s) (log s).
Definition set_stor s v := mk (ags s) (active s) (cm s) (ex s) (Some v) (nstop s) (preq s) (cb s) (unst s) (log s).
Definition set_nstop s v := mk (ags s) (active s) (cm s) (ex s) (stor s) v (preq s) (cb s) (unst s) (log s).
Definition set_preq s := mk (ags s) (active s) (cm s) (ex s) (stor s) (nstop s) true (cb s) (unst s) (log s).
Definition set_cb s v := mk (ags s) (active s) (cm s) (ex s) (stor s) (nstop s) (preq s) v (unst s) (log s).
Definition emit s e := mk (ags s) (active s) (cm s) (ex s) (stor s) (nstop s) (preq s) (cb s) (unst s) (e :: log s).

Definition w_ap a v := mka (kd a) v (nx a) (via a) (alive a).

(** __nested_stop::request_stop L126-133 *)
Definition request (s : state) : state := if unst s then s else set_nstop s true.

(** where an agent goes after its error has been dealt with: __receive_nested_values::set_error L780-784
    completes the next receiver, the others (L572-579, L1037-1042, L1154-1159) do not *)
Definition after_fail (a : agent) : pc :=
  match kd a with KSeq => if via a then PNext CBrk else PBrk | _ => PBrk end.

Definition final (s : state) : done :=
  match cm s with
  | CStarted => DValue
  | CStopped => DStopped
  | CError => match ex s with Some e => DError e | None => DItem (match stor s with Some e => e | None => 0 end) end
  end.

(** A step of the library on behalf of agent [i]. *)
Definition lib (i : nat) (a : agent) (s : state) : option state :=
  match ap a with
  | PChk => if negb (unst s) && nstop s                       (* L1190-1200 *)
            then Some (emit (set_ag s i (w_ap a PEnd)) (EDone DStopped))
            else Some (set_ag (set_active s 1) i (w_ap a PRun))
  | PInc => Some (set_ag (set_active s (active s + 1)) i
                         (w_ap a (match kd a with KSeq => PItem | _ => PRun end)))   (* L1080, L619 *)
  | PNext c =>                                                (* L725, L732, L567, L576, L584 *)
      Some (emit (set_ag s i (mka (kd a) (match c with CDec => PDec | CBrk => PBrk | CFail e => PFail e end) true (via a) (alive a)))
                 (ENext i))
  | PFail e =>                                                (* L355-364, L431-444 *)
      Some (emit (set_cm (set_ag s i (w_ap a (match cm s with
                                      | CStarted => PReqF e
                                      | CStopped => PStore e
                                      | CError => after_fail a end))) CError) (EErr i e))
  | PReqF e => Some (set_ag (request s) i (w_ap a (PStore e)))
  | PStore e =>
      let s1 := set_ag s i (w_ap a (after_fail a)) in
      match kd a with
      | KOuter => Some (set_ex s1 e)
      | _ => Some (set_stor (if alive a then s1 else emit s1 (EDangling i)) e)
      end
  | PBrk => match cm s with
            | CStarted => Some (set_cm (set_ag s i (w_ap a PReqB)) CStopped)
            | _ => Some (set_ag s i (w_ap a PDec))
            end
  | PReqB => Some (set_ag (request s) i (w_ap a PDec))
  | PDec => Some (set_ag (set_active s (active s - 1)) i (w_ap a (if active s =? 1 then PUnr else PEnd)))
  | PUnr => Some (set_ag (set_cb s false) i (w_ap a PFin))
  | PFin => Some (emit (set_ag s i (w_ap a PEnd)) (EDone (final s)))
  | P0 | PItem | PRun | PEnd => None
  end.

(** is [b] an item of the sequence that agent [i] runs? *)
Definition child_of (i : nat) (b : agent) : bool :=
  match kd b with KOuter => false | KSeq => Nat.eqb i 0 | KVal p => Nat.eqb i p end.
Definition all_next (i : nat) (l : list agent) : bool := forallb (fun b => implb (child_of i b) (nx b)) l.

(** The user's operation of agent [i] completes. *)
Definition user (i : nat) (a : agent) (r : result) (s : state) : option state :=
  match ap a with
  | PItem => match r with
             | ROk => Some (set_ag s i (mka (kd a) PRun (nx a) true (alive a)))   (* L1021-1025 *)
             | RErr e => Some (set_ag s i (w_ap a (PFail e)))                     (* L1031, L1040; exceptions of subscribe, too *)
             | RStop => Some (set_ag s i (w_ap a PDec))                           (* L1046 *)
             end
  | PRun => if all_next i (ags s) then
              match kd a, r with
              | KOuter, ROk => Some (set_ag s i (w_ap a PDec))                    (* L1151 *)
              | KOuter, RErr e => Some (set_ag s i (w_ap a (PFail e)))            (* L1157 *)
              | KOuter, RStop => Some (set_ag s i (w_ap a PBrk))                  (* L1163 *)
              | KSeq, RErr e => Some (set_ag s i (w_ap a (PFail e)))              (* L782 *)
              | KSeq, _ => Some (set_ag s i (w_ap a (PNext CDec)))                (* L776, L788 *)
              | KVal _, RErr e => Some (set_ag s i (w_ap a (PNext (CFail e))))    (* L576-578 *)
              | KVal _, _ => Some (set_ag s i (w_ap a (PNext CDec)))              (* L567-569, L584-585 *)
              end
            else None
  | _ => None
  end.

Inductive action :=
| AStart                        (* start() of the merged sequence *)
| AStopReq                      (* the receiver's stop token is requested *)
| ALib (i : nat)
| AItem (i : nat)               (* the sequence of agent i starts a new item *)
| AUser (i : nat) (r : result)
| ADestroy (i : nat).           (* the sequence an item belongs to destroys its operation *)

Definition step (a : action) (s : state) : option state :=
  match a with
  | AStart => match nth_error (ags s) 0 with                            (* L1187-1189 *)
              | Some o => match ap o with
                          | P0 => Some (set_ag (if unst s then s else set_cb (if preq s then set_nstop s true else s) true) 0 (w_ap o PChk))
                          | _ => None end
              | None => None end
  | AStopReq => if unst s || preq s then None
                else Some (if cb s then set_nstop (set_preq s) true else set_preq s)
  | ALib i => match nth_error (ags s) i with Some o => lib i o s | None => None end
  | AItem i => match nth_error (ags s) i with
               | Some o => match ap o, kd o with
                           | PRun, KOuter => Some (add_ag s (mka KSeq PInc false false true))
                           | PRun, KSeq => Some (add_ag s (mka (KVal i) PInc false false true))
                           | _, _ => None end
               | None => None end
  | AUser i r => match nth_error (ags s) i with Some o => user i o r (emit s (EUser i r)) | None => None end
  | ADestroy i => match nth_error (ags s) i with
                  | Some o => if nx o && alive o then Some (set_ag s i (mka (kd o) (ap o) (nx o) (via o) false)) else None
                  | None => None end
  end.

Fixpoint runs (l : list action) (s : state) : option state :=
  match l with
  | [] => Some s
  | a :: r => match step a s with Some s' => runs r s' | None => None end
  end.

Definition init (u : bool) : state :=
  mk [mka KOuter P0 false false true] 0 CStarted None None false false false u [].
Definition reachable (s : state) : Prop := exists u acts, runs acts (init u) = Some s.

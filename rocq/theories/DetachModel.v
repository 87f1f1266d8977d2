(** Model of detached work: the dynamically allocated operation states of exec::start_detached (/repo/include/exec/start_detached.hpp L60-145, L261-304, "SD")
    and stdexec::spawn (/repo/include/stdexec/__detail/__spawn.hpp L52-134, L274-307, "SP"), with submit_result
    (/repo/include/stdexec/__detail/__submit.hpp L124-231, "SU") in its four forms and __optional::__emplace_from
    (/repo/include/stdexec/__detail/__optional.hpp L126-137).  async_scope::spawn builds its state in the same way
    (/repo/include/exec/async_scope.hpp L770-800).

    Any number of operations, each created by one thread and completed by that thread (inside start or submit) or by any other one: the
    steps of the completion may come at any point after the sender has been started.  All construction steps may throw.
    Simplified: the scope is reduced to its closed flag, its count and the completion of join (ScopeModel has the details); a sender that is started completes
    with set_value or set_stopped (set_error terminates, SD L87-92, or is rejected, SP L275). *)
From Coq Require Import List Bool Arith.
From Verif Require Import Conc.
Import ListNotations.
Set Implicit Arguments.

(** How the operation is made. start_detached uses connect, or the sender's own submit() member: returning void, returning an object that is kept in an __optional, or
    (if it is noexcept) in a __manual_lifetime; SU L124-156.  KSpawn: stdexec::spawn, which always connects. *)
Inductive kind := KConnect | KVoid | KSubmit | KNothrow | KSpawn.
(** The calling thread; the number is the line about to be executed.
    CAlloc SD L289, SP L294; CEnv SD L112, SP L96; CConn SD L113 / SU L169, SP L97; CAssoc SP L98; CRun SD L122, SP L101-111; CSub: inside submit();
    CWait: in __complete() because there is no association, SP L109; CRet: about to return; CDelOp, CDelEnv, CDelMem: unwinding; CDone, CThrown. *)
Inductive cpc := CAlloc | CEnv | CConn | CAssoc | CRun | CSub | CWait | CRet | CDelOp | CDelEnv | CDelMem | CDone | CThrown.
(** The completion: not started, running; then SD L80-83 and the destroying delete L125-134, or SP L120-133. *)
Inductive kpc := KNone | KRunning | KMove | KDelOp | KDelEnv | KDelMem | KDis | KEnd.
(** an object: never made, alive, destroyed *)
Inductive life := LNo | LLive | LDead.
Inductive obj := OMem | OEnv | OOp.
(** an association: none; held by the state or by the local of SP L125; given up *)
Inductive assoc := ANo | AHeld | AGone.
Record op := mko { kd : kind; cp : cpc; kp : kpc; mem : life; env : life; oo : life; hasv : bool; asc : assoc }.
Definition new k := mko k CAlloc KNone LNo LNo LNo false ANo.

(** What can be observed of one operation: memory is allocated / an object made, freed / destroyed; the sender is started; it completes; the call returns or throws; the scope is
    associated and disassociated; something is done that the language forbids (an object is used, made or destroyed when its memory is not there,
    destroyed without having been made, or twice). *)
Inductive oev := EMk (o : obj) | EDl (o : obj) | EStart | ECompl | ERet | EThrow | EAssoc | EDis | EBad.

Definition w_cp s v := mko (kd s) v (kp s) (mem s) (env s) (oo s) (hasv s) (asc s).
Definition w_kp s v := mko (kd s) (cp s) v (mem s) (env s) (oo s) (hasv s) (asc s).
Definition w_mem s v := mko (kd s) (cp s) (kp s) v (env s) (oo s) (hasv s) (asc s).
Definition w_env s v := mko (kd s) (cp s) (kp s) (mem s) v (oo s) (hasv s) (asc s).
Definition w_oo s v := mko (kd s) (cp s) (kp s) (mem s) (env s) v (hasv s) (asc s).
Definition w_hasv s v := mko (kd s) (cp s) (kp s) (mem s) (env s) (oo s) v (asc s).
Definition w_asc s v := mko (kd s) (cp s) (kp s) (mem s) (env s) (oo s) (hasv s) v.

(** an access to the allocated memory *)
Definition touch s : list oev := match mem s with LLive => [] | _ => [EBad] end.
Definition make o s : op * list oev :=
  match o with
  | OMem => (w_mem s LLive, [EMk OMem])
  | OEnv => (w_env s LLive, touch s ++ [EMk OEnv])
  | OOp => (w_oo s LLive, touch s ++ [EMk OOp])
  end.
Definition destroy o s : op * list oev :=
  match o with
  | OMem => (w_mem s LDead, touch s ++ [EDl OMem])
  | OEnv => (w_env s LDead, touch s ++ match env s with LLive => [] | _ => [EBad] end ++ [EDl OEnv])
  | OOp => (w_oo s LDead, touch s ++ match oo s with LLive => [] | _ => [EBad] end ++ [EDl OOp])
  end.

(** [OCall b]: the calling thread goes on; b: what it calls throws (for CAssoc see OAssoc). [OAssoc b]: try_associate returns b. [OCompl]: the completion goes on. *)
Inductive oact := OCall (throws : bool) | OAssoc (ok : bool) | OCompl.
Definition connects k := match k with KConnect | KSpawn => true | _ => false end.

(** One step of an operation. *)
Definition ostep (s : op) (a : oact) : option (op * list oev) :=
  match a with
  | OAssoc b => match cp s with CAssoc => Some (w_cp (w_asc s (if b then AHeld else ANo)) CRun, if b then [EAssoc] else []) | _ => None end
  | OCall b =>
      match cp s, b with
      | CAlloc, false => let (s, e) := make OMem s in Some (w_cp s CEnv, e)
      | CAlloc, true => Some (w_cp s CThrown, [EThrow])
      | CEnv, false => let (s, e) := make OEnv s in Some (w_cp s CConn, e)
      | CEnv, true => Some (w_cp s CDelMem, [])
      | CConn, false =>
          if connects (kd s) then let (s, e) := make OOp s in Some (w_cp s (match kd s with KSpawn => CAssoc | _ => CRun end), e)
          else Some (w_cp s CRun, [])                                                   (* SU L185, L202, L216: nothing *)
      | CConn, true => if connects (kd s) then Some (w_cp s CDelEnv, []) else None
      | CAssoc, true => Some (w_cp s CDelOp, [])
      | CRun, false =>
          match kd s with
          | KConnect => Some (w_cp (w_kp s KRunning) CRet, touch s ++ [EStart])         (* SU L174 *)
          | KVoid | KNothrow => Some (w_cp (w_kp s KRunning) CSub, touch s ++ [EStart]) (* SU L207, L220 *)
          | KSubmit => Some (w_cp (w_kp (w_hasv s true) KRunning) CSub, touch s ++ [EStart])  (* SU L189: the flag is set first *)
          | KSpawn => match asc s with
                      | AHeld => Some (w_cp (w_kp s KRunning) CRet, touch s ++ [EStart])
                      | _ => Some (w_cp (w_kp s KMove) CWait, touch s)
                      end
          end
      | CSub, false =>
          match kd s with
          | KSubmit | KNothrow => let (s, e) := make OOp s in Some (w_cp s CRet, e)     (* the result of submit() is constructed in place *)
          | _ => Some (w_cp s CRet, [])
          end
      | CSub, true =>                                                                   (* submit() throws: it has not completed and never will *)
          match kd s, kp s with
          | KVoid, KRunning => Some (w_cp (w_kp s KNone) CDelEnv, [])
          | KSubmit, KRunning => Some (w_cp (w_kp (w_hasv s false) KNone) CDelEnv, touch s)
          | _, _ => None
          end
      | CWait, false => match kp s with KEnd => Some (w_cp s CRet, []) | _ => None end
      | CRet, false => Some (w_cp s CDone, [ERet])                                      (* SD L300, SP L304: the guard is a local *)
      | CDelOp, false => let (s, e) := destroy OOp s in Some (w_cp s CDelEnv, e)
      | CDelEnv, false => let (s, e) := destroy OEnv s in Some (w_cp s CDelMem, e)
      | CDelMem, false => let (s, e) := destroy OMem s in Some (w_cp s CThrown, e ++ [EThrow])   (* SD L290-292, SP L296 *)
      | _, _ => None
      end
  | OCompl =>
      match kp s with
      | KRunning => Some (w_kp s (match kd s with KSpawn => KMove | _ => KDelOp end), [ECompl])
      | KMove => Some (w_kp s KDelOp, touch s)
      | KDelOp =>
          match kd s with
          | KVoid => Some (w_kp s KDelEnv, [])
          | KSubmit => if hasv s then let (s, e) := destroy OOp s in Some (w_kp s KDelEnv, e) else Some (w_kp s KDelEnv, touch s)
          | _ => let (s, e) := destroy OOp s in Some (w_kp s KDelEnv, e)
          end
      | KDelEnv => let (s, e) := destroy OEnv s in Some (w_kp s KDelMem, e)
      | KDelMem => let (s, e) := destroy OMem s in Some (w_kp s (match asc s with AHeld => KDis | _ => KEnd end), e)
      | KDis => Some (w_kp (w_asc s AGone) KEnd, [EDis])
      | _ => None
      end
  end.

(** ** Many operations and one scope *)
Inductive event := Ev (j : nat) (e : oev) | EJoin.
Record state := mks { ops : nat -> option op; closed : bool; count : nat; joined : bool; log : list event }.
Definition init := mks (fun _ => None) false 0 false [].
Inductive action := ANew (j : nat) (k : kind) | AOp (j : nat) (a : oact) | AClose | AJoin.
Definition evs j es (l : list event) := rev (map (Ev j) es) ++ l.
Definition step (s : state) (a : action) : option state :=
  match a with
  | ANew j k => match ops s j with None => Some (mks (fset (ops s) j (Some (new k))) (closed s) (count s) (joined s) (log s)) | _ => None end
  | AOp j a =>
      match ops s j with
      | None => None
      | Some o =>
          let allowed := match a with OAssoc b => Bool.eqb b (negb (closed s)) | _ => true end in
          if allowed then
            match ostep o a with
            | None => None
            | Some (o', es) =>
                let c := if existsb (fun e => match e with EAssoc => true | _ => false end) es then S (count s)
                         else if existsb (fun e => match e with EDis => true | _ => false end) es then count s - 1 else count s in
                Some (mks (fset (ops s) j (Some o')) (closed s) c (joined s) (evs j es (log s)))
            end
          else None
      end
  | AClose => Some (mks (ops s) true (count s) (joined s) (log s))
  | AJoin => if closed s && (count s =? 0) && negb (joined s) then Some (mks (ops s) (closed s) (count s) true (EJoin :: log s)) else None
  end.
Fixpoint runs (l : list action) (s : state) : option state :=
  match l with
  | [] => Some s
  | a :: l => match step s a with Some s' => runs l s' | None => None end
  end.

(** ** The second operation of let_value & co., /repo/include/stdexec/__detail/__let.hpp L197-219, L283 *)
(** The receiver's completion when submitting the second sender throws: set_error, or -- the handler is compiled only if storing the arguments,
    calling the function or *constructing* the submit_result may throw (L198-201, L213) -- nothing at all.  For a sender with a submit() member the constructor never throws (SU L185, L202, L216). *)
Definition let_handler (k : kind) (nothrow_store nothrow_invoke nothrow_connect : bool) : bool :=
  negb (nothrow_store && nothrow_invoke && match k with KConnect => nothrow_connect | _ => true end).
Inductive signal := SigError | SigLost.
Definition let_submit_throws k a b c : signal := if let_handler k a b c then SigError else SigLost.

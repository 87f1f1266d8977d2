(** Model of the shared state of spawn_future
    (/repo/include/stdexec/__detail/__spawn_future.hpp L136-683).

    Three parties meet on one atomic word [__registered_receiver_]:
    - the producer: the spawned operation, completing into
      [__spawn_future_receiver] (L167-211) and then [__do_complete] (L395-456);
    - the consumer: the owner of the future, which either drops it
      ([__abandon], L323-347) or connects and starts it ([__run], L628-639, then
      [__consume], L255-321);
    - the canceller: the stop callback registered by a started future, running
      [__do_try_cancel] (L458-599) on whatever thread requests stop, or on the
      consumer's own thread if stop was requested before the callback was
      registered.

    Every atomic operation is one step; memory orders are not modelled
    (sequential consistency).  The destructor of the stop callback, run by
    [__future_operation::__complete] (L674-679) before the receiver is
    completed, waits until the callback has returned, unless it is called on
    the thread that executes the callback (C15, C16). *)
From Coq Require Import List Bool Arith.
Import ListNotations.
Set Implicit Arguments.

(** What a receiver is completed with: the spawned operation's result (a value
    or error, numbered) or stopped. *)
Inductive outcome := Res (n : nat) | Stopped.

(** L357-367: nullptr, this, this + 1, the address of the receiver. *)
Inductive word := WNull | WSelf | WMark | WRcvr.

(** Producer. [P0]: not completed; [P1]: result stored (L192-209), at the
    exchange L409; [P2]: at the callback L450; [P3]: at [__destroy]; [P4]: done. *)
Inductive ppc := P0 | P1 | P2 | P3 | P4.
(** The thread the spawned operation completes on: its own; inside the
    [request_stop] of the canceller (L510); inside the [request_stop] of
    [__abandon] (L327). *)
Inductive pthread := POwn | POnK | POnC.

(** Consumer. [C0]: owns the future; [C1]: callback constructed, at the CAS
    L272; [CWait]: registered; [C2]: at the exchange L303; [C3]: at
    [__do_consume] L310; [C4]: at set_stopped L319; [C5]: at [__destroy] L311;
    [A1]: in request_stop L327; [A2]: at the exchange L335; [A3]: at
    [__destroy] L345; [CDone]. *)
Inductive cpc := C0 | C1 | CWait | C2 | C3 | C4 | C5 | A1 | A2 | A3 | CDone.

(** Canceller. [K1]: in request_stop L510; [K2]: at the CAS L515; [K3]: at the
    exchange L575; [K4]: at [__cb(nullptr, __rcvr)] L587; [KDone]. *)
Inductive kpc := K0 | K1 | K2 | K3 | K4 | KDone.
Inductive kthread := KOwn | KOnC.

(** The stop callback object of the started future. *)
Inductive cbst := NoCb | Reg | Gone.

Record st := mk {
  w : word;
  pp : ppc;
  pt : pthread;
  cc : cpc;
  kk : kpc;
  kt : kthread;
  cb : cbst;
  stop : bool;           (* stop requested on the receiver's token *)
  alive : bool;          (* the shared state is allocated *)
  frees : nat;           (* how often it was destroyed *)
  res : option outcome;  (* __result_ *)
  out : list outcome;    (* completions of the future's receiver, newest first *)
  bad : bool             (* some step touched the state after it was destroyed *)
}.

Definition init : st :=
  mk WNull P0 POwn C0 K0 KOwn NoCb false true 0 None [] false.

Definition touch (s : st) : st :=
  mk (w s) (pp s) (pt s) (cc s) (kk s) (kt s) (cb s) (stop s) (alive s) (frees s) (res s) (out s)
     (bad s || negb (alive s)).
Definition set_w (x : word) (s : st) : st :=
  mk x (pp s) (pt s) (cc s) (kk s) (kt s) (cb s) (stop s) (alive s) (frees s) (res s) (out s) (bad s).
Definition set_p (x : ppc) (s : st) : st :=
  mk (w s) x (pt s) (cc s) (kk s) (kt s) (cb s) (stop s) (alive s) (frees s) (res s) (out s) (bad s).
Definition set_c (x : cpc) (s : st) : st :=
  mk (w s) (pp s) (pt s) x (kk s) (kt s) (cb s) (stop s) (alive s) (frees s) (res s) (out s) (bad s).
Definition set_k (x : kpc) (s : st) : st :=
  mk (w s) (pp s) (pt s) (cc s) x (kt s) (cb s) (stop s) (alive s) (frees s) (res s) (out s) (bad s).
(** L674-679: the stop callback is destroyed, then the receiver completed. *)
Definition deliver (o : outcome) (s : st) : st :=
  mk (w s) (pp s) (pt s) (cc s) (kk s) (kt s) Gone (stop s) (alive s) (frees s) (res s) (o :: out s) (bad s).
(** L378-390. *)
Definition destroy (s : st) : st :=
  mk (w s) (pp s) (pt s) (cc s) (kk s) (kt s) (cb s) (stop s) false (S (frees s)) (res s) (out s)
     (bad s || negb (alive s)).

(** The result handed out by [__do_consume] (L392-395). *)
Definition result (s : st) : outcome :=
  match res s with Some o => o | None => Stopped end.

(** Is the canceller running, and on which thread. *)
Definition k_running (s : st) : bool :=
  match kk s with K0 | KDone => false | _ => true end.
(** Is the producer in the middle of completing inside somebody's request_stop. *)
Definition p_active (s : st) : bool :=
  match pp s with P0 | P4 => false | _ => true end.

(** May a thread destroy the stop callback now (see the header)?  For the
    producer: unless the canceller runs on another thread. *)
Definition p_may_deliver (s : st) : bool :=
  negb (k_running s) || match pt s, kt s with POnK, _ => true | POnC, KOnC => true | _, _ => false end.
Definition c_may_deliver (s : st) : bool :=
  negb (k_running s) || match kt s with KOnC => true | KOwn => false end.

Inductive action :=
| RequestStop                        (* somebody requests stop on the receiver's token *)
| PBegin (th : pthread) (o : outcome)(* the spawned operation completes *)
| PExchange | PCallback | PDestroy
| CStart | CAbandon
| CCas | CExchange | CConsume | CStopped | CDestroy
| AReq | AExchange | ADestroy
| KBegin | KReq | KCas | KExchange | KCallback.

(** Is the thread of the canceller / consumer free to move, i.e. not inside a
    nested completion of the spawned operation? *)
Definition k_free (s : st) : bool :=
  negb (p_active s && match pt s with POnK => true | _ => false end).
Definition c_free (s : st) : bool :=
  negb (p_active s && match pt s with POnC => true | _ => false end)
  && negb (k_running s && match kt s with KOnC => true | KOwn => false end).

(** [sync]: the spawned operation may complete inside the canceller's call of
    request_stop on a foreign thread. *)
Definition step (sync : bool) (a : action) (s : st) : option st :=
  match a with
  | RequestStop => if stop s then None else
      Some (mk (w s) (pp s) (pt s) (cc s) (kk s) (kt s) (cb s) true (alive s) (frees s) (res s) (out s) (bad s))
  | PBegin th o =>
      match pp s with
      | P0 =>
          let ok := match th with
                    | POwn => true
                    | POnK => match kk s with K1 => sync || match kt s with KOnC => true | KOwn => false end
                              | _ => false end
                    | POnC => match cc s with A1 => true | _ => false end
                    end in
          if ok then
            Some (touch (mk (w s) P1 th (cc s) (kk s) (kt s) (cb s) (stop s) (alive s) (frees s)
                            (Some o) (out s) (bad s)))
          else None
      | _ => None
      end
  (* L409-455 *)
  | PExchange =>
      match pp s with
      | P1 => Some (touch (set_w WSelf (set_p (match w s with
                                               | WNull | WMark => P4
                                               | WSelf => P3
                                               | WRcvr => P2 end) s)))
      | _ => None
      end
  | PCallback =>
      match pp s with
      | P2 => if p_may_deliver s then Some (set_p P3 (deliver (result s) (touch s))) else None
      | _ => None
      end
  | PDestroy => match pp s with P3 => Some (set_p P4 (destroy s)) | _ => None end
  (* L628-639: construct the stop callback; if stop was already requested it
     runs at once, on this thread. *)
  | CStart =>
      match cc s with
      | C0 => Some (mk (w s) (pp s) (pt s) C1 (if stop s then K1 else kk s)
                       (if stop s then KOnC else kt s) Reg (stop s) (alive s)
                       (frees s) (res s) (out s) (bad s || (stop s && negb (alive s))))
      | _ => None
      end
  | CAbandon => match cc s with C0 => Some (touch (set_c A1 s)) | _ => None end
  (* L258-291 *)
  | CCas =>
      match cc s with
      | C1 => if c_free s then
                Some (touch (match w s with
                             | WNull => set_w WRcvr (set_c CWait s)
                             | WMark => set_c C2 s
                             | WSelf => set_c C3 s
                             | WRcvr => set_c C4 s   (* assertion L315 fails *)
                             end))
              else None
      | _ => None
      end
  (* L303 *)
  | CExchange =>
      match cc s with
      | C2 => Some (touch (set_w WSelf (set_c (match w s with WSelf => C3 | _ => C4 end) s)))
      | _ => None
      end
  | CConsume =>
      match cc s with
      | C3 => if c_may_deliver s then Some (set_c C5 (deliver (result s) (touch s))) else None
      | _ => None
      end
  | CStopped =>
      match cc s with
      | C4 => if c_may_deliver s then Some (set_c CDone (deliver Stopped s)) else None
      | _ => None
      end
  | CDestroy => match cc s with C5 => Some (set_c CDone (destroy s)) | _ => None end
  (* L323-347; AReq: request_stop has returned *)
  | AReq => match cc s with
            | A1 => if c_free s then Some (touch (set_c A2 s)) else None
            | _ => None
            end
  | AExchange =>
      match cc s with
      | A2 => Some (touch (set_w WSelf (set_c (match w s with WNull => CDone | _ => A3 end) s)))
      | _ => None
      end
  | ADestroy => match cc s with A3 => Some (set_c CDone (destroy s)) | _ => None end
  (* the stop callback starts on a foreign thread *)
  | KBegin =>
      match kk s, cb s with
      | K0, Reg =>
          if stop s then
            Some (touch (mk (w s) (pp s) (pt s) (cc s) K1 KOwn (cb s) (stop s) (alive s) (frees s)
                            (res s) (out s) (bad s)))
          else None
      | _, _ => None
      end
  (* request_stop returns, touching the stop source a last time *)
  | KReq => match kk s with
            | K1 => if k_free s then Some (touch (set_k K2 s)) else None
            | _ => None
            end
  (* L515-551 *)
  | KCas =>
      match kk s with
      | K2 => Some (touch (match w s with
                           | WNull => set_w WMark (set_k KDone s)
                           | WSelf => set_k KDone s
                           | _ => set_k K3 s
                           end))
      | _ => None
      end
  (* L553-596 *)
  | KExchange =>
      match kk s with
      | K3 => Some (touch (set_w WSelf (set_k (match w s with WRcvr => K4 | _ => KDone end) s)))
      | _ => None
      end
  | KCallback => match kk s with K4 => Some (set_k KDone (deliver Stopped s)) | _ => None end
  end.

Fixpoint runs (sync : bool) (l : list action) (s : st) : option st :=
  match l with
  | [] => Some s
  | a :: r => match step sync a s with Some s' => runs sync r s' | None => None end
  end.

Definition reachable (sync : bool) (s : st) : Prop := exists l, runs sync l init = Some s.

(** Model of exec::fork_join (/repo/include/exec/fork_join.hpp): sndr | fork_join(c_0, .., c_{n-1}) runs sndr once, stores its result and runs the n senders c_i(result) at the same time.
    Modelled: the operation state L117-214 (its members in their order L210-213), the sender of the stored result L69-109, the choice of when_all for n branches L32-40 with
    /repo/include/stdexec/__detail/__when_all.hpp L182-202 (none: just(); one: the branch itself; more: when_all), and the way when_all chooses its result (same file, L562-649, L788-884).
    Any number of branches; a branch reads the stored result any number of times (a closure may use its sender in any way), at any moments, on any thread, and ends with any result.
    The child may throw while being connected, or when its result is copied.  A stop request may come at any time.  The operation may be destroyed before it is started or as soon as it has completed.
    Simplified: the counter and the state word of when_all change in one step each time a branch completes (WhenAllConcModel has their interleavings); the result a branch ends with is what
    when_all stored for it, so an exception from copying that result is an error result of the branch; all threads see the same order of steps. *)
From Coq Require Import List Arith Bool.
From Verif Require Import Conc.
Import ListNotations.
Set Implicit Arguments.

(** a completion: values, an error, the exception caught while copying (L177), stopped *)
Inductive res := RV (vs : list nat) | RE (e : nat) | RX | RS.

(** a branch: not connected, connected, running, ended *)
Inductive bst := BNo | BConn | BRun | BEnd (r : res).
Inductive cst := KNone | KLive | KGone.

(** The operation: connecting branch k (L135-138), connecting the child (L140-142), ready to be started, child running (L160), the child's result is stored (L170/L177) and the child is destroyed next (L180),
    branch k is started next (L181 and when_all L797), waiting for the branches, completed, terminated by an exception in a noexcept function (L133), destroyed. *)
Inductive pc := PConn (k : nat) | PChild | PReady | PRun | PDes | PFork (k : nat) | PWait | PDone | PTerm | PGone.

(** cache: _cache_; order: the results of the branches, latest first; ext: a stop request has reached when_all while it was in its first state (L562-581) *)
Record st := mk { at_ : pc; kids : list bst; child : cst; cache : option res; order : list res; ext : bool }.
Definition init n := mk (PConn 0) (repeat BNo n) KNone None [] false.

Definition w_at s v := mk v (kids s) (child s) (cache s) (order s) (ext s).
Definition w_kids s v := mk (at_ s) v (child s) (cache s) (order s) (ext s).
Definition w_child s v := mk (at_ s) (kids s) v (cache s) (order s) (ext s).
Definition w_cache s v := mk (at_ s) (kids s) (child s) v (order s) (ext s).
Definition w_order s v := mk (at_ s) (kids s) (child s) (cache s) v (ext s).
Definition w_ext s v := mk (at_ s) (kids s) (child s) (cache s) (order s) v.

(** Events: the branch i is connected; the child is connected, started, completes with r (and its copy threw or not), is destroyed; branch i starts; branch i reads the stored result and gets r;
    branch i ends with r; the receiver is completed with r; a stop request reaches when_all; the storage of branch operations and of the result is gone; std::terminate; the exception reaches the caller of connect; something forbidden:
    a child destroyed that is not there, a result read that is not there. *)
Inductive event := EConn (i : nat) | EChild | EStart | EResult (r : res) (threw : bool) | EChildGone | EBegin (i : nat) | ERead (i : nat) (r : res) | EEnd (i : nat) (r : res) | EComplete (r : res) | EStop | EGone | ETerm | EThrow | EBad.

(** L151, L180: destroying the manual lifetime object *)
Definition kill s : st * list event := (w_child s KGone, match child s with KLive => [EChildGone] | _ => [EChildGone; EBad] end).

Definition is_err r := match r with RE _ | RX => true | _ => false end.
Definition is_stp r := match r with RS => true | _ => false end.
(** when_all L806-833: the first error that arrives; order is latest first *)
Fixpoint first_err (l : list res) : option res :=
  match l with [] => None | r :: l => match first_err l with Some e => Some e | None => if is_err r then Some r else None end end.
Definition values (b : bst) := match b with BEnd (RV vs) => vs | _ => [] end.
(** the receiver's completion: when_all() L184, when_all(s) L190, when_all L612-649 *)
Definition outcome s : res :=
  match kids s with
  | [] => RV []
  | [BEnd r] => r
  | ks => match first_err (order s) with
          | Some e => e
          | None => if existsb is_stp (order s) || ext s then RS else RV (flat_map values ks)
          end
  end.
Definition ended (b : bst) := match b with BEnd _ => true | _ => false end.

(** after starting a branch or the end of one: is everything over?  when_all L604-610 *)
Definition settle s (ev : list event) : st * list event :=
  match at_ s with
  | PWait => if forallb ended (kids s) then (w_at s PDone, ev ++ [EComplete (outcome s)]) else (s, ev)
  | _ => (s, ev)
  end.

(** What happens next: the constructor goes on (and an exception is thrown or not); the user starts the operation; the child completes with r (and the copy throws or not);
    the operation goes on from where it is; branch i reads; branch i ends with r; a stop request; the user destroys the operation. *)
Inductive label := LCtor (throws : bool) | LStart | LResult (r : res) (throws : bool) | LGo | LRead (i : nat) | LEnd (i : nat) (r : res) | LStop | LDestroy.

Definition step (s : st) (l : label) : option (st * list event) :=
  match l, at_ s with
  (* L133-143: the constructor is noexcept, and so is __connect L269 *)
  | LCtor true, PConn _ | LCtor true, PChild => Some (w_at s PTerm, [ETerm])
  | LCtor false, PConn k =>
      if k <? length (kids s) then Some (w_at (w_kids s (upd (kids s) k BConn)) (PConn (S k)), [EConn k])
      else Some (w_at s PChild, [])
  | LCtor false, PChild => Some (w_at (w_child s KLive) PReady, [EChild])
  | LStart, PReady => Some (w_at s PRun, [EStart])
  (* L165-179 *)
  | LResult r t, PRun => Some (w_at (w_cache s (Some (if t then RX else r))) PDes, [EResult r t])
  (* L180 *)
  | LGo, PDes => let (s', e) := kill s in Some (w_at s' (PFork 0), e)
  (* L181 *)
  | LGo, PFork k =>
      if k <? length (kids s) then Some (w_at (w_kids s (upd (kids s) k BRun)) (PFork (S k)), [EBegin k])
      else Some (settle (w_at s PWait) [])
  (* L79-82 *)
  | LRead i, _ =>
      match nth_error (kids s) i with
      | Some BRun => Some (s, match cache s with Some r => [ERead i r] | None => [EBad] end)
      | _ => None
      end
  | LEnd i r, _ =>
      match nth_error (kids s) i with
      | Some BRun => Some (settle (w_order (w_kids s (upd (kids s) i (BEnd r))) (r :: order s)) [EEnd i r])
      | _ => None
      end
  | LStop, PFork _ | LStop, PWait => Some (w_ext s true, [EStop])
  (* L148-155: the child is destroyed if there is no result; then the members, last first *)
  | LDestroy, PReady | LDestroy, PDone =>
      let (s', e) := match cache s with None => kill s | Some _ => (s, []) end in
      Some (w_at s' PGone, e ++ [EGone])
  | _, _ => None
  end.

(** configurations: the state and the events so far, latest first *)
Definition cfg := (st * list event)%type.
Definition cstep (c : cfg) (l : label) : option cfg :=
  match step (fst c) l with Some (s, ev) => Some (s, rev ev ++ snd c) | None => None end.
Fixpoint runs (c : cfg) (ls : list label) : option cfg :=
  match ls with [] => Some c | l :: ls => match cstep c l with Some c' => runs c' ls | None => None end end.
Definition reachable n c := exists ls, runs (init n, []) ls = Some c.

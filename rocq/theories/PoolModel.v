(** * PoolModel: the worker loop of static_thread_pool, its queues and its sleep/wake-up protocol
    (include/exec/static_thread_pool.hpp L151-214, L785-817, L891-1199).

    Any number of worker threads and of other threads, any number of remote queues, every
    interleaving of the atomic operations on state_, num_active_, the remote queues, the mutex and
    the condition variable; condition variables may wake up spuriously and compare_exchange_weak may fail
    spuriously.  A task may enqueue any further tasks, on its own worker or on others.

    Simplifications:
    - sequentially consistent atomics; the two poll modes L145-149 differ only in memory ordering, so
      polling a queue is one pop_all step in both;
    - the critical sections of notify() and request_stop() are one step each, possible only when the
      worker does not hold its mutex; the worker's own critical section (L1140-1172) is many steps;
    - the local work-stealing queue is a deque of which the last [own] tasks cannot be stolen (they
      are in the owner's block); how many tasks push_back accepts and how blocks are granted and
      taken over is arbitrary, except for what Bwos*.v proves about it: pop_back takes the last task
      and fails only on an empty queue (C26_pop_null_means_empty), and after push_back of at least
      one task the next pop_back does not fail (C26_pop_after_push_not_null);
    - __intrusive_queue and the remote stacks are lists (C21-C23);
    - num_active_ is a pair (active, stealing): the packed 32-bit word is exact as long as neither
      half overflows, see C38_active_count;
    - NUMA binding and victim selection are arbitrary choices. *)

From Coq Require Import List Arith Bool.
From Verif Require Import Conc.
Import ListNotations.
Set Implicit Arguments.

Definition task := nat.
Definition agent := nat.          (* a thread: numbers below the number of workers are the workers *)

(** L653-659 (stealing is not used) *)
Inductive wstate := Running | Sleeping | Notified.

(** thread_state, L673-682 *)
Record wk := {
  st : wstate;                    (* state_ *)
  stop : bool;                    (* stop_requested_ *)
  loc : list task;                (* local_queue_, front (oldest) first *)
  own : nat;                      (* how many at its back thieves cannot take *)
  pend : list task }.             (* pending_queue_ *)
Definition w_st k v := {| st := v; stop := stop k; loc := loc k; own := own k; pend := pend k |}.
Definition w_stop k v := {| st := st k; stop := v; loc := loc k; own := own k; pend := pend k |}.
Definition w_loc k l o := {| st := st k; stop := stop k; loc := l; own := o; pend := pend k |}.
Definition w_pend k v := {| st := st k; stop := stop k; loc := loc k; own := own k; pend := v |}.

(** program counters; [b] is true when polling before sleeping (L1154) *)
Inductive pc :=
| Ext                             (* not a worker *)
| PopLocal                        (* L1008 *)
| Poll (b : bool) (qs : list nat) (acc : list task)    (* L177-192: queues still to poll, tasks taken *)
| Move (b : bool)                 (* L997 *)
| PopAfter (b : bool)             (* L998 *)
| SetSteal                        (* L1117 *)
| Stealing                        (* L1118-1136 *)
| Clear (r : option (task * nat)) (* L1123, L1133, L1138: the task stolen and the queue it was in *)
| Lock                            (* L1140 *)
| Cas                             (* L1146 *)
| Restore (t : task)              (* L1158 *)
| SetSleep                        (* L1164 *)
| PreWait                         (* L1165, before releasing the mutex *)
| Waiting                         (* L1165, waiting *)
| Unsleep                         (* L1167 *)
| Exch                            (* L1173 *)
| Ready (t : task) (q : nat)      (* pop() returns t and q *)
| Exec                            (* L806 *)
| Exit.                           (* L804 *)

(** notify() L1179-1190 in progress: before the exchange, before the mutex, before cv_.notify_one *)
Inductive nphase := N0 | N1 | N2.
Record note := { cur : option (nat * nphase); more : list nat }.   (* more: notify_one_sleeping's next candidates *)
Definition quiet := {| cur := None; more := [] |}.
(** notify() on the workers of l in turn, until one returns true *)
Definition notify_list (l : list nat) : note :=
  match l with [] => quiet | x :: r => {| cur := Some (x, N0); more := r |} end.

Inductive event :=
| ESubmit (t : task) (w : nat)    (* t is enqueued for worker w: pushed on a queue of w *)
| EExec (a : agent) (t : task) (q : nat).   (* worker a executes t with queue index q, L806 *)

Record state := {
  ws : list wk;
  pcs : list pc;
  notes : list note;
  rem : list (nat * nat * task);  (* remote queues: (queue, worker, task), newest first *)
  nq : nat;                       (* number of remote queues in the list *)
  active : nat;                   (* num_active_ >> 16 *)
  thieves : nat;                  (* num_active_ & 0xffff *)
  next : task;                    (* ghost: the next fresh task *)
  log : list event }.             (* ghost, newest first *)

Definition s_ws s v := {| ws := v; pcs := pcs s; notes := notes s; rem := rem s; nq := nq s; active := active s; thieves := thieves s; next := next s; log := log s |}.
Definition s_pc s a p := {| ws := ws s; pcs := upd (pcs s) a p; notes := notes s; rem := rem s; nq := nq s; active := active s; thieves := thieves s; next := next s; log := log s |}.
Definition s_note s a v := {| ws := ws s; pcs := pcs s; notes := upd (notes s) a v; rem := rem s; nq := nq s; active := active s; thieves := thieves s; next := next s; log := log s |}.
Definition s_rem s v := {| ws := ws s; pcs := pcs s; notes := notes s; rem := v; nq := nq s; active := active s; thieves := thieves s; next := next s; log := log s |}.
Definition s_nq s v := {| ws := ws s; pcs := pcs s; notes := notes s; rem := rem s; nq := v; active := active s; thieves := thieves s; next := next s; log := log s |}.
Definition s_num s a t := {| ws := ws s; pcs := pcs s; notes := notes s; rem := rem s; nq := nq s; active := a; thieves := t; next := next s; log := log s |}.
Definition s_log s l k := {| ws := ws s; pcs := pcs s; notes := notes s; rem := rem s; nq := nq s; active := active s; thieves := thieves s; next := next s + k; log := l ++ log s |}.
Definition s_wk s w k := s_ws s (upd (ws s) w k).

(** remote queue q of worker w: its tasks, newest first *)
Definition in_queue (q w : nat) (e : nat * nat * task) : bool := (fst (fst e) =? q) && (snd (fst e) =? w).
Definition queue (s : state) (q w : nat) : list task := map snd (filter (in_queue q w) (rem s)).

(** does the worker hold its mutex (L1140-1172)? *)
Definition holds (p : pc) : bool :=
  match p with
  | Cas | Poll true _ _ | Move true | PopAfter true | Restore _ | SetSleep | PreWait => true
  | _ => false
  end.
Definition locked (s : state) (w : nat) : bool := match nth_error (pcs s) w with Some p => holds p | None => false end.

(** notify_one_sleeping L1093-1109: the order in which workers are tried *)
Definition candidates (n me start : nat) : list nat :=
  filter (fun i => negb (i =? me)) (map (fun i => (start + i) mod n) (seq 0 n)).

Inductive action :=
| ANotify (a : agent)             (* the next step of the notify() in progress *)
| APop (w : nat) (o : nat)        (* local_queue_.pop_back(); o: what is in the owner's block afterwards *)
| APoll (w : nat)
| AMove (w : nat) (k o : nat)     (* move_pending_to_local: k tasks are accepted *)
| ASetSteal (w : nat)
| ASteal (w v : nat)              (* a steal from v succeeds *)
| AGiveUp (w : nat)               (* all attempts failed *)
| AClear (w : nat) (start : nat)  (* clear_stealing; start: the random index of notify_one_sleeping *)
| ALock (w : nat)
| ACas (w : nat) (spurious : bool)
| ARestore (w : nat)
| ASetSleep (w : nat)
| AWait (w : nat)
| AWake (w : nat)                 (* spurious wake-up *)
| AUnsleep (w : nat) (start : nat)
| AExch (w : nat)
| AExec (w : nat)
| ADone (w : nat)                 (* the task returns *)
| APushLocal (w : nat) (full : bool) (o : nat)
| APushList (w : nat) (k : nat)   (* push_local of k tasks *)
| APush (a : agent) (q w : nat)   (* enqueue on a remote queue *)
| APrepend (a : agent) (q w k : nat)   (* bulk_enqueue: k tasks on one remote queue *)
| ANewQueue (a : agent)           (* remote_queue_list::get adds a queue L207-212 *)
| AStop (a : agent) (w : nat).    (* thread_state::request_stop L1192-1199 *)

Section Params.
Variable n : nat.                 (* thread_count_ *)

Definition main (s : state) (a : agent) : option pc :=     (* the thread is not inside notify() *)
  match nth_error (pcs s) a, nth_error (notes s) a with
  | Some p, Some v => match cur v with None => Some p | Some _ => None end
  | _, _ => None
  end.
(** may this thread enqueue tasks now? *)
Definition client (p : pc) : bool := match p with Ext | Exec => true | _ => false end.

Definition step (c : action) (s : state) : option state :=
  match c with
  | ANotify a =>
      match nth_error (notes s) a with
      | Some v =>
          match cur v with
          | Some (w, N0) =>                                                  (* L1181 *)
              match nth_error (ws s) w with
              | Some k =>
                  let s1 := s_wk s w (w_st k Notified) in
                  Some (s_note s1 a (match st k with
                                     | Sleeping => {| cur := Some (w, N1); more := [] |}
                                     | _ => notify_list (more v) end))       (* L1189, L1104-1108 *)
              | None => None
              end
          | Some (w, N1) => if locked s w then None else Some (s_note s a {| cur := Some (w, N2); more := [] |})   (* L1184 *)
          | Some (w, N2) =>                                                  (* L1186, L1198 *)
              Some (s_note (match nth_error (pcs s) w with Some Waiting => s_pc s w Unsleep | _ => s end) a quiet)
          | None => None
          end
      | None => None
      end
  | APop w o =>
      match main s w, nth_error (ws s) w with
      | Some PopLocal, Some k =>                                             (* L1008-1013 *)
          match rev (loc k) with
          | t :: r => if o <=? length r then Some (s_pc (s_wk s w (w_loc k (rev r) o)) w (Ready t w)) else None
          | [] => Some (s_pc s w (Poll false (rev (seq 0 (nq s))) []))
          end
      | Some (PopAfter b), Some k =>                                         (* L998 *)
          match rev (loc k) with
          | t :: r => if o <=? length r then
                        Some (s_pc (s_wk s w (w_loc k (rev r) o)) w (if b then Restore t else Ready t w)) else None
          | [] => Some (s_pc s w (if b then SetSleep else SetSteal))
          end
      | _, _ => None
      end
  | APoll w =>
      match main s w, nth_error (ws s) w with
      | Some (Poll b (q :: qs) acc), _ =>                                    (* L184-188 *)
          Some (s_pc (s_rem s (filter (fun e => negb (in_queue q w e)) (rem s))) w (Poll b qs (acc ++ rev (queue s q w))))
      | Some (Poll b [] acc), Some k =>                                      (* L994-995 *)
          let p := pend k ++ acc in
          Some (s_pc (s_wk s w (w_pend k p)) w (match p with [] => if b then SetSleep else SetSteal | _ => Move b end))
      | _, _ => None
      end
  | AMove w m o =>
      match main s w, nth_error (ws s) w with
      | Some (Move b), Some k =>                                             (* L979-987, L997 *)
          let l := loc k ++ firstn m (pend k) in
          if (1 <=? o) && (o <=? length l)
          then Some (s_pc (s_wk s w (w_pend (w_loc k l o) (skipn m (pend k)))) w (PopAfter b)) else None
      | _, _ => None
      end
  | ASetSteal w =>
      match main s w with
      | Some SetSteal => Some (s_pc (s_num s (active s - 1) (thieves s + 1)) w Stealing)   (* L1073-1077 *)
      | _ => None
      end
  | ASteal w v =>
      match main s w, nth_error (ws s) v with
      | Some Stealing, Some k =>                                             (* L1016-1029, L620-626 *)
          if (own k <? length (loc k)) && negb (v =? w) then
            match loc k with
            | t :: r => Some (s_pc (s_wk s v (w_loc k r (own k))) w (Clear (Some (t, v))))
            | [] => None
            end
          else None
      | _, _ => None
      end
  | AGiveUp w => match main s w with Some Stealing => Some (s_pc s w (Clear None)) | _ => None end
  | AClear w start =>
      match main s w with
      | Some (Clear r) =>                                                    (* L1080-1091 *)
          let s1 := s_num s (active s + 1) (thieves s - 1) in
          let s2 := if (thieves s =? 1) && negb (active s =? 0) then s_note s1 w (notify_list (candidates n w start)) else s1 in
          Some (s_pc s2 w (match r with Some (t, q) => Ready t q | None => Lock end))
      | _ => None
      end
  | ALock w =>
      match main s w, nth_error (ws s) w with
      | Some Lock, Some k => Some (s_pc s w (if stop k then Exit else Cas))  (* L1140-1144, L802-804 *)
      | _, _ => None
      end
  | ACas w spurious =>
      match main s w, nth_error (ws s) w with
      | Some Cas, Some k =>                                                  (* L1145-1149 *)
          match st k, spurious with
          | Running, false => Some (s_pc (s_wk s w (w_st k Sleeping)) w (Poll true (rev (seq 0 (nq s))) []))
          | _, _ => Some (s_pc s w Exch)                                     (* L1169-1172 *)
          end
      | _, _ => None
      end
  | ARestore w =>
      match main s w, nth_error (ws s) w with
      | Some (Restore t), Some k =>                                          (* L1157-1162 *)
          Some (s_pc (match st k with Sleeping => s_wk s w (w_st k Running) | _ => s end) w (Ready t w))
      | _, _ => None
      end
  | ASetSleep w =>
      match main s w with
      | Some SetSleep => Some (s_pc (s_num s (active s - 1) (thieves s)) w PreWait)   (* L1057-1060 *)
      | _ => None
      end
  | AWait w => match main s w with Some PreWait => Some (s_pc s w Waiting) | _ => None end   (* L1165 *)
  | AWake w => match main s w with Some Waiting => Some (s_pc s w Unsleep) | _ => None end
  | AUnsleep w start =>
      match main s w with
      | Some Unsleep =>                                                      (* L1063-1071 *)
          let s1 := s_num s (active s + 1) (thieves s) in
          let s2 := if (active s =? 0) && (thieves s =? 0) then s_note s1 w (notify_list (candidates n w start)) else s1 in
          Some (s_pc s2 w Exch)
      | _ => None
      end
  | AExch w =>
      match main s w, nth_error (ws s) w with
      | Some Exch, Some k => Some (s_pc (s_wk s w (w_st k Running)) w PopLocal)   (* L1173-1174 *)
      | _, _ => None
      end
  | AExec w =>
      match main s w with
      | Some (Ready t q) => Some (s_log (s_pc s w Exec) [EExec w t q] 0)     (* L806 *)
      | _ => None
      end
  | ADone w => match main s w with Some Exec => Some (s_pc s w PopLocal) | _ => None end   (* L798-801, L1114 *)
  | APushLocal w full o =>
      match main s w, nth_error (ws s) w with
      | Some Exec, Some k =>                                                 (* L898-906, L1043-1049 *)
          let t := next s in
          if full then Some (s_log (s_wk s w (w_pend k (pend k ++ [t]))) [ESubmit t w] 1)
          else if o <=? length (loc k ++ [t]) then Some (s_log (s_wk s w (w_loc k (loc k ++ [t]) o)) [ESubmit t w] 1) else None
      | _, _ => None
      end
  | APushList w m =>
      match main s w, nth_error (ws s) w with
      | Some Exec, Some k =>                                                 (* L951-959, L1051-1055 *)
          let l := seq (next s) m in
          Some (s_log (s_wk s w (w_pend k (l ++ pend k))) (map (fun t => ESubmit t w) l) m)
      | _, _ => None
      end
  | APush a q w =>
      match main s a with
      | Some p =>                                                            (* L908-912, L919-923, L932-936 *)
          if client p && (q <? nq s) && (w <? n) then
            let s1 := s_log (s_rem s ((q, w, next s) :: rem s)) [ESubmit (next s) w] 1 in
            Some (match queue s q w with [] => s_note s1 a (notify_list [w]) | _ => s1 end)
          else None
      | None => None
      end
  | APrepend a q w m =>
      match main s a with
      | Some p =>                                                            (* L969-975 *)
          if client p && (q <? nq s) && (w <? n) then
            let l := seq (next s) m in
            Some (s_note (s_log (s_rem s (map (fun t => (q, w, t)) l ++ rem s)) (map (fun t => ESubmit t w) l) m) a (notify_list [w]))
          else None
      | None => None
      end
  | ANewQueue a =>
      match main s a with
      | Some p => if client p then Some (s_nq s (S (nq s))) else None
      | None => None
      end
  | AStop a w =>
      match main s a, nth_error (ws s) w with
      | Some p, Some k =>
          if locked s w || negb (client p) then None else
          Some (s_note (s_wk s w (w_stop k true)) a {| cur := Some (w, N2); more := [] |})
      | _, _ => None
      end
  end.

(** L732-777: n workers, m other threads; the list of remote queues has one element (this_remotes_) *)
Definition init (m : nat) : state :=
  {| ws := repeat {| st := Running; stop := false; loc := []; own := 0; pend := [] |} n;
     pcs := repeat PopLocal n ++ repeat Ext m; notes := repeat quiet (n + m);
     rem := []; nq := 1; active := n; thieves := 0; next := 0; log := [] |}.
Inductive reachable : state -> Prop :=
| r_init m : reachable (init m)
| r_step s c s' : reachable s -> step c s = Some s' -> reachable s'.
End Params.

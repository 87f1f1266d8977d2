(** Model of the rings exec::io_uring_context shares with the kernel (/repo/include/exec/linux/io_uring_context.hpp):
    - __submission_queue L208-291: submit L236-290, with every access to shared memory a step, against a kernel that may take entries at any time (constructor flags may ask for a polling kernel thread);
    - __completion_queue L293-337: complete L311-327, against a kernel that may post completions at any time, also while a completion function runs.
    Indices are machine words of 2^w values (w = 32 in the code) that start anywhere and wrap around; a ring has n = 2^k slots, the mask is n - 1 (L224, L304).
    Simplified: executions are sequentially consistent; an entry is its user_data (a task's address, here a number), -1 while its other fields are being written (L360, L363);
    a task is popped once per call of submit, so the answer of its __ready_ is an attribute of it (trdy), as is whether its opcode is ASYNC_CANCEL (tcan); the list of ready tasks given to complete L328-334 is not a shared ring and not modelled here (IoUringModel has it);
    a kernel that finds the completion ring full keeps the completion for later. *)
From Coq Require Import List ZArith Bool.
From Verif Require Import Conc.
Import ListNotations.
Set Implicit Arguments.
Open Scope Z_scope.

Record cfg := mkc { wbits : Z; kbits : Z }.
Definition words (c : cfg) : Z := 2 ^ wbits c.
Definition slots (c : cfg) : Z := 2 ^ kbits c.
Definition wrap (c : cfg) (x : Z) : Z := x mod words c.
(** L249, L319: index & mask *)
Definition slot (c : cfg) (x : Z) : Z := Z.land x (slots c - 1).
Definition set (f : Z -> Z) (x v : Z) : Z -> Z := fun y => if y =? x then v else f y.

(** ** The submission ring *)
Record task := mkt { tid : Z; trdy : bool; tcan : bool }.

(** Where submit is. Loop variables: the tasks left, max_submissions, is_stopped, the local tail, n_submitted, the ready list. *)
Record loc := mkl { ltasks : list task; lmax : Z; lstop : bool; ltail : Z; lsub : Z; lready : list task }.
Inductive spc :=
| SIdle
| SHead (l : loc)              (* L239 done: the tail is read *)
| SLoop (l : loc)              (* L247 *)
| SFill (l : loc) (op : task). (* L259 has written the entry, L263 is next *)

Inductive sev :=
| ECall (ts : list task) (m : Z) (stopped : bool)
| EAcc (t : task)              (* L269-272 *)
| EStop (t : task)             (* L265 *)
| ERet (nsub : Z) (pending ready : list task)
| ETake (d : Z)                (* the kernel takes an entry with this user_data *)
| EAssert.                     (* L242 fails *)

Record sst := mks { shead : Z; stail : Z; sarr : Z -> Z; sent : Z -> Z; spcs : spc; slog : list sev }.
(** the state at construction: both indices anywhere, the same; the arrays hold anything *)
Definition sinit (c : cfg) (s0 : Z) (a e : Z -> Z) : sst := mks (wrap c s0) (wrap c s0) a e SIdle [].

Inductive slbl :=
| LSubmit (ts : list task) (m : Z) (stopped : bool)   (* submit is called; L239 *)
| LStep                                               (* its next step *)
| LTake.                                              (* the kernel takes the entry at the head *)

(** L277-288: after the tail is stored *)
Definition drain_ready (ts : list task) := filter trdy ts.
Definition drain_pending (ts : list task) := filter (fun t => negb (trdy t)) ts.

Definition sstep (c : cfg) (a : slbl) (s : sst) : option sst :=
  match a with
  | LSubmit ts m stopped =>
      match spcs s with
      | SIdle => if m <? 0 then None else
          Some (mks (shead s) (stail s) (sarr s) (sent s) (SHead (mkl ts m stopped (stail s) 0 [])) (ECall ts m stopped :: slog s))
      | _ => None
      end
  | LStep =>
      match spcs s with
      | SIdle => None
      | SHead l => (* L240-245 *)
          let count := wrap c (ltail l - shead s) in
          let m := Z.min (lmax l) (wrap c (slots c - count)) in
          Some (mks (shead s) (stail s) (sarr s) (sent s) (SLoop (mkl (ltasks l) m (lstop l) (ltail l) 0 []))
                    (if count <=? slots c then slog s else EAssert :: slog s))
      | SLoop l =>
          match ltasks l with
          | t :: ts =>
              if lsub l <? lmax l then
                if trdy t then (* L253-256 *)
                  Some (mks (shead s) (stail s) (sarr s) (sent s) (SLoop (mkl ts (lmax l) (lstop l) (ltail l) (lsub l) (lready l ++ [t]))) (slog s))
                else (* L259-261 *)
                  Some (mks (shead s) (stail s) (sarr s) (set (sent s) (slot c (ltail l)) (-1))
                            (SFill (mkl ts (lmax l) (lstop l && negb (tcan t)) (ltail l) (lsub l) (lready l)) t) (slog s))
              else (* L276-289 *)
                Some (mks (shead s) (ltail l) (sarr s) (sent s) SIdle (ERet (lsub l) (drain_pending (t :: ts)) (lready l ++ drain_ready (t :: ts)) :: slog s))
          | [] => Some (mks (shead s) (ltail l) (sarr s) (sent s) SIdle (ERet (lsub l) [] (lready l) :: slog s))
          end
      | SFill l t =>
          if lstop l then (* L265 *)
            Some (mks (shead s) (stail s) (sarr s) (sent s) (SLoop l) (EStop t :: slog s))
          else (* L269-272 *)
            let i := slot c (ltail l) in
            Some (mks (shead s) (stail s) (set (sarr s) i i) (set (sent s) i (tid t))
                      (SLoop (mkl (ltasks l) (lmax l) (lstop l) (wrap c (ltail l + 1)) (lsub l + 1) (lready l))) (EAcc t :: slog s))
      end
  | LTake =>
      if shead s =? stail s then None else
      Some (mks (wrap c (shead s + 1)) (stail s) (sarr s) (sent s) (spcs s) (ETake (sent s (sarr s (slot c (shead s)))) :: slog s))
  end.
Fixpoint srun (c : cfg) (ls : list slbl) (s : sst) : option sst :=
  match ls with [] => Some s | a :: ls => match sstep c a s with Some s' => srun c ls s' | None => None end end.

(** ** The completion ring *)
(** Where complete is: the local head, the tail read last, the count *)
Inductive cpc :=
| CIdle
| CTail (h : Z)                (* L314 done *)
| CLoop (h t n : Z)            (* L317 *)
| CIn (h t n : Z)              (* a completion function runs, with a reference to the entry of h, L322 *)
| CNext (h n : Z).             (* L325 is next *)
Inductive cev :=
| EEnter | EPost (v : Z) | EHandle (v : Z) | ERead (v : Z) | EDone (n : Z).
Record cst := mkcs { chead : Z; ctail : Z; cent : Z -> Z; cpcs : cpc; clog : list cev }.
Definition cinit (c : cfg) (s0 : Z) (e : Z -> Z) : cst := mkcs (wrap c s0) (wrap c s0) e CIdle [].
Inductive clbl :=
| LEnter                       (* complete is called; L314 *)
| LCont                        (* its next step *)
| LRead                        (* the running completion function reads its entry *)
| LPost (v : Z).               (* the kernel posts a completion *)
Definition cstep (c : cfg) (a : clbl) (s : cst) : option cst :=
  match a with
  | LEnter => match cpcs s with CIdle => Some (mkcs (chead s) (ctail s) (cent s) (CTail (chead s)) (EEnter :: clog s)) | _ => None end
  | LCont =>
      match cpcs s with
      | CIdle => None
      | CTail h => Some (mkcs (chead s) (ctail s) (cent s) (CLoop h (ctail s) 0) (clog s))
      | CLoop h t n =>
          if h =? t then Some (mkcs h (ctail s) (cent s) CIdle (EDone n :: clog s))
          else Some (mkcs (chead s) (ctail s) (cent s) (CIn h t n) (EHandle (cent s (slot c h)) :: clog s))
      | CIn h t n => Some (mkcs (chead s) (ctail s) (cent s) (CNext (wrap c (h + 1)) (n + 1)) (clog s))
      | CNext h n => Some (mkcs (chead s) (ctail s) (cent s) (CLoop h (ctail s) n) (clog s))
      end
  | LRead => match cpcs s with CIn h _ _ => Some (mkcs (chead s) (ctail s) (cent s) (cpcs s) (ERead (cent s (slot c h)) :: clog s)) | _ => None end
  | LPost v =>
      if wrap c (ctail s - chead s) <? slots c then
        Some (mkcs (chead s) (wrap c (ctail s + 1)) (set (cent s) (slot c (ctail s)) v) (cpcs s) (EPost v :: clog s))
      else None
  end.
Fixpoint crun (c : cfg) (ls : list clbl) (s : cst) : option cst :=
  match ls with [] => Some s | a :: ls => match cstep c a s with Some s' => crun c ls s' | None => None end end.

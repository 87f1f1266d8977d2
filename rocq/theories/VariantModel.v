(** Model of stdexec::__variant (/repo/include/stdexec/__detail/__variant.hpp, "V") and stdexec::__optional (/repo/include/stdexec/__detail/__optional.hpp, "O"): the containers
    in which operation states keep results and child operations.

    The constructors and destructors of the contained objects are user code: while one of them runs (it is a frame on the stack) it may start any operation on any
    container, including the one it lives in.  The code of the containers between two calls of user code is one step.
    Simplified: one thread; a copy or move constructor of a variant (V L185-203) is the assignment to a fresh valueless one; swap (V L390) is the sequence of operations std::swap makes;
    emplace by type (V L283) is emplace by the first index of that type; contained destructors do not throw (they are noexcept). *)
From Coq Require Import List Bool Arith.
From Verif Require Import Conc.
Import ListNotations.
Set Implicit Arguments.

(** An object: under construction or constructed; its destructor is running; destroyed; its constructor threw. *)
Inductive ost := OLive | ODtor | ODead | OThrown.
Definition ost_eqb a b := match a, b with OLive, OLive | ODtor, ODtor | ODead, ODead | OThrown, OThrown => true | _, _ => false end.
(** A container: an optional or a variant; the types of the alternatives (V: _Ts; O: one type); __index_ (None = __variant_npos) or __has_value_ (Some 0);
    the object in the storage; whether the container itself still exists. *)
Record ctr := mkc { opt : bool; cts : list nat; idx : option nat; sto : option nat; alive : bool }.
(** What the constructor of the contained object reads: nothing, a given object (an argument of emplace), or the content of another variant, x, which has index i there. *)
Inductive src := SNone | SArg (x : nat) | SCopy (x i : nat).
(** What is done once the old content is destroyed *)
Inductive kont := KEnd | KReset | KEmplace (k : nat) (a : option (nat * nat)) | KAssign (q : nat).   (** [a]: (container, object) the argument refers to *)
(** User code running: a constructor, or a destructor and what the container does next. *)
Inductive frame := FCtor (v k o : nat) | FDtor (v o : nat) (K : kont).
(** [BTouch]: a container is used that no longer exists; [BDtor]: a destructor is run on something that is not a live object of that type; [BOver]: an object is built over another;
    [BUse]: an object is read that is not live *)
Inductive bad := BTouch (v : nat) | BDtor (v : nat) | BOver (v : nat) | BUse (v : nat).
Inductive event := ECtor (v k o : nat) (s : src) | ECtorEnd (o : nat) | ECtorThrow (o : nat) | EDtor (o : nat) | EDtorEnd (o : nat) | EGet (v o : nat) | EBad (b : bad).
Record state := mks { objs : list (nat * ost); ctrs : list ctr; stk : list frame; log : list event }.
Definition init := mks [] [] [] [].

Definition emit s e := mks (objs s) (ctrs s) (stk s) (e :: log s).
Definition w_stk s x := mks (objs s) (ctrs s) x (log s).
Definition w_ctr s v c := mks (objs s) (upd (ctrs s) v c) (stk s) (log s).
Definition w_idx c i := mkc (opt c) (cts c) i (sto c) (alive c).
Definition w_sto c o := mkc (opt c) (cts c) (idx c) o (alive c).
Definition w_alive c b := mkc (opt c) (cts c) (idx c) (sto c) b.
Definition no_ctr := mkc false [] None None false.
Definition gc s v := nth v (ctrs s) no_ctr.
Definition ostat s o := match nth_error (objs s) o with Some (_, st) => Some st | None => None end.
Definition oty s o := match nth_error (objs s) o with Some (t, _) => Some t | None => None end.
Definition w_ost s o st := match nth_error (objs s) o with Some (t, _) => mks (upd (objs s) o (t, st)) (ctrs s) (stk s) (log s) | None => s end.
Definition is_live s o := match ostat s o with Some OLive => true | _ => false end.
Definition onat_eqb (a b : option nat) := match a, b with Some x, Some y => x =? y | None, None => true | _, _ => false end.
Definition chk (b : bool) s e := if b then s else emit s (EBad e).
Definition touch s v := chk (alive (gc s v)) s (BTouch v).
(** STDEXEC::__index_of, V L288: the first index of a type *)
Fixpoint index_of (t : nat) (ts : list nat) : nat := match ts with [] => 0 | x :: ts => if x =? t then 0 else S (index_of t ts) end.

(** V L292-294, L308-311: the index is set first, with a guard; O L119-121 *)
Definition construct s v k (a : src) : state :=
  let s := touch s v in
  let c := gc s v in
  let s := chk (match sto c with None => true | Some _ => false end) s (BOver v) in
  let s := chk (match a with SNone => true | SArg x | SCopy x _ => is_live s x end) s (BUse v) in
  let o := length (objs s) in
  emit (mks (objs s ++ [(nth k (cts c) 0, OLive)]) (upd (ctrs s) v (w_sto (w_idx c (Some k)) (Some o))) (FCtor v k o :: stk s) (log s)) (ECtor v k o a).
Definition cont s v (K : kont) : state :=
  match K with
  | KEnd => w_ctr s v (w_alive (gc s v) false)
  | KReset => s
  | KEmplace k a => construct s v k (match a with Some (_, x) => SArg x | None => SNone end)
  | KAssign q =>                                                                           (* V L219-222, L234-237: visit other, emplace<decay_t<T>> (V L140-161) *)
      let s := touch s q in
      match idx (gc s q) with
      | None => s
      | Some i => match sto (gc s q) with
                  | Some x => construct s v (index_of (nth i (cts (gc s q)) 0) (cts (gc s v))) (SCopy x i)
                  | None => emit s (EBad (BUse q))
                  end
      end
  end.
(** V L163-172 __destroy: the index is exchanged first; O L202-209 reset and O L93-99: the flag is cleared afterwards, or not at all *)
Definition destroy s v (K : kont) : state :=
  let s := touch s v in
  match idx (gc s v) with
  | None => cont s v K
  | Some i =>
      let s := if opt (gc s v) then s else w_ctr s v (w_idx (gc s v) None) in
      match sto (gc s v) with
      | Some o =>
          let s := chk (is_live s o && onat_eqb (oty s o) (nth_error (cts (gc s v)) i)) s (BDtor v) in
          emit (w_stk (w_ost s o ODtor) (FDtor v o K :: stk s)) (EDtor o)
      | None => cont (emit s (EBad (BDtor v))) v K
      end
  end.

Inductive op := OpEmplace (k : nat) (a : option nat) | OpAssign (q : nat) | OpDestroy | OpReset | OpGet.
Inductive action := ACreate (o : bool) (ts : list nat) | AOp (v : nat) (p : op) | ARet | AThrow.
Definition step (s : state) (a : action) : option state :=
  match a with
  | ACreate o ts => Some (mks (objs s) (ctrs s ++ [mkc o ts None None true]) (stk s) (log s))   (* V L183, O L72 *)
  | AOp v p =>
      match p with
      | OpEmplace k None => Some (destroy s v (KEmplace k None))                              (* V L283-311; O L114-124 *)
      | OpEmplace k (Some q) => match sto (gc s q) with Some x => Some (destroy s v (KEmplace k (Some (q, x)))) | None => None end
      | OpAssign q => if v =? q then Some s else Some (destroy s v (KAssign q))               (* V L211-241 *)
      | OpDestroy => Some (destroy s v KEnd)                                                  (* V L206-209; O L93-99 *)
      | OpReset => Some (destroy s v KReset)                                                  (* O L202-209 *)
      | OpGet => let s := touch s v in                                                        (* V L395-403; O L166-182 *)
          match idx (gc s v), sto (gc s v) with
          | Some i, Some o => Some (emit (chk (is_live s o && onat_eqb (oty s o) (nth_error (cts (gc s v)) i)) s (BUse v)) (EGet v o))
          | _, _ => Some (emit s (EBad (BUse v)))
          end
      end
  | ARet =>
      match stk s with
      | FCtor v k o :: st => Some (emit (w_stk s st) (ECtorEnd o))                            (* V L295-296: only the guard, a local, is touched *)
      | FDtor v o K :: st =>
          let s := emit (w_ost (w_stk s st) o ODead) (EDtorEnd o) in
          let s := if onat_eqb (sto (gc s v)) (Some o) then w_ctr s v (w_sto (gc s v) None) else s in
          let s := match K with KEnd => s | _ => if opt (gc s v) then let s := touch s v in w_ctr s v (w_idx (gc s v) None) else s end in
          Some (cont s v K)
      | [] => None
      end
  | AThrow =>
      match stk s with
      | FCtor v k o :: st =>                                                                  (* the guard, V L83-87, O L55-59 *)
          let s := emit (w_ost (w_stk s st) o OThrown) (ECtorThrow o) in
          let s := if onat_eqb (sto (gc s v)) (Some o) then w_ctr s v (w_sto (gc s v) None) else s in
          let s := touch s v in
          Some (w_ctr s v (w_idx (gc s v) None))
      | _ => None
      end
  end.

(** Invariants of async_scope::spawn_future (C50). *)
From Coq Require Import List ZArith Bool Arith Lia.
From Verif Require Import Conc AsyncFutureModel.
Import ListNotations.
Set Implicit Arguments.

Definition isD (e : event) : bool := match e with EDeliver _ => true | _ => false end.
Definition isS (e : event) : bool := match e with EStart => true | _ => false end.
Definition isF (e : event) : bool := match e with EFree => true | _ => false end.
Definition isX (e : event) : bool := match e with EUaf false | ETerm => true | _ => false end.
Definition nat_of (b : bool) : nat := if b then 1 else 0.

(** the spawned operation has not stored its result *)
Definition wpre (w : wpc) : Prop := match w with WRun | W1 _ => True | _ => False end.
Definition wpost (w : wpc) : Prop := match w with WSub false | WEnd => True | _ => False end.
Definition late (c : cpc) : nat := match c with C3 | C4 => 1 | _ => 0 end.
Definition begun (c : cpc) : Prop := match c with C0 => False | _ => True end.

Definition handed (f : fut) : Prop :=
  nof f = true /\ cnt isD (log f) = 0 /\ cnt isS (log f) = 0 /\
  match wp f with
  | WRun | W1 _ => stp f = SNoFuture /\ dead f = false
  | WDel => stp f = SDeleted /\ dead f = false
  | WEnd => dead f = true
  | _ => False
  end.
Definition live (f : fut) (t : fstep) (d s : nat) : Prop :=
  stp f = t /\ nof f = false /\ dead f = false /\ cnt isD (log f) = d /\ cnt isS (log f) = s.

Definition shape (f : fut) : Prop :=
  match up f with
  | UNew => live f SCreated 0 0 /\ sub f = false /\ (wpre (wp f) \/ wpost (wp f)) /\ fcon f = CbNone
  | UF | UFd => live f SFuture 0 0 /\ sub f = false /\ (wpre (wp f) \/ wpost (wp f)) /\ fcon f = CbNone
  | UO | UOd => live f SFuture 0 0 /\ sub f = false /\ (wpre (wp f) \/ wpost (wp f))
  | US => live f SFuture 0 1 /\ sub f = false /\ (wpre (wp f) \/ wpost (wp f))
  | UFx | UOy => live f SFuture 0 0 /\ sub f = false /\ wpost (wp f) /\ fcon f = CbNone
  | UOx => live f SFuture 0 0 /\ sub f = false /\ wpost (wp f)
  | UC c => live f SFuture (late c) 1 /\ sub f = false /\ wpost (wp f) /\ (begun c -> fcon f = CbNone)
  | USub => live f SFuture 0 1 /\ (wpre (wp f) /\ sub f = true \/ wp f = WSub true /\ sub f = false)
  | UOz => handed f /\ sub f = false
  | UEnd => sub f = false /\ (wp f <> WC C0 -> fcon f = CbNone) /\
            (handed f \/
             (exists c, wp f = WC c /\ live f SFuture (late c) 1) \/
             (dead f = true /\ nof f = false /\ wpost (wp f) /\ cnt isD (log f) = cnt isS (log f) /\ cnt isS (log f) <= 1))
  end.

Record finv (f : fut) : Prop := {
  f_sh : shape f;
  f_dat : (dat f = None <-> wpre (wp f));
  f_sco : dat f <> None -> fsco f = CbNone;
  f_x : cnt isX (log f) = 0;
  f_free : cnt isF (log f) = nat_of (dead f)
}.
Record linv (f : fut) : Prop := {
  f_op : forall o, dat f = Some o \/ wp f = W1 o -> In (EOp o) (log f);
  f_run : wp f = WRun <-> (forall o, ~ In (EOp o) (log f));
  f_req : preq f = true <-> In EReq (log f);
  f_c2 : forall o, up f = UC (C2 o) \/ wp f = WC (C2 o) -> dat f = Some o \/ o = Stp /\ preq f = true;
  f_del : forall o, In (EDeliver o) (log f) -> In (EOp o) (log f) \/ o = Stp /\ preq f = true
}.

Lemma new_inv q : finv (new_fut q).
Proof.
  constructor; simpl; try tauto.
  unfold shape, live. simpl. auto 10.
Qed.
Lemma new_linv q : linv (new_fut q).
Proof.
  constructor; simpl; try tauto.
  - intros o [H|H]; discriminate.
  - split; [intros H; discriminate|tauto].
  - intros o [H|H]; discriminate.
Qed.

Ltac pr := cbn [up wp stp nof dat sub fcon fsco ssrc preq dead log set_up set_wp set_stp set_nof set_dat set_sub set_fcon set_fsco
                set_ssrc set_preq set_dead emit free] in *.


Ltac brk H :=
  repeat match type of H with
  | context [match ?x with _ => _ end] =>
      lazymatch x with
      | context [match _ with _ => _ end] => fail
      | _ => destruct x eqn:?; cbn [orb] in H; pr; try discriminate H
      end
  end.


Ltac crush :=
  repeat match goal with
  | H : _ /\ _ |- _ => destruct H
  | H : _ \/ _ |- _ => destruct H
  | H : exists _, _ |- _ => destruct H
  | H : False |- _ => destruct H
  | H : ?x = ?x -> _ |- _ => specialize (H eq_refl)
  | H : WC _ = WC _ |- _ => injection H as H; subst
  | H : ?x = ?y |- _ => first [discriminate H | subst x | subst y]
  end.


Lemma f_step_linv q a f f' : finv f -> linv f -> f_step q a f = Some f' -> linv f'.
Proof.
  intros [_ Hdat _ _ _] [Hop Hrun Hreq Hc2 Hdel] H.
  destruct f as [u w st nf da su fc fs ss pq de lg].
  unfold f_step, u_step, w_step, c_step, free, touch, reset in H; cbv zeta in H; pr.
  destruct a.
  all: pr; brk H; try discriminate H; injection H as <-; subst; pr.
  all: constructor; pr; cbn [In].
  all: try assumption.
  all: repeat match goal with
       | |- forall _, _ => intros ?
       | |- _ <-> _ => split
       | H : _ /\ _ |- _ => destruct H
       | H : _ \/ _ |- _ => destruct H
       | H : ?x = ?y |- _ => first [discriminate H | subst x | subst y | injection H as H; subst]
       end; try solve [intuition (first [discriminate|congruence|subst;eauto|exfalso;eauto])].
  all: try solve [match goal with H : In (EDeliver ?o) _ |- _ => destruct (Hdel o H) end; intuition auto].
  all: try solve [exfalso; match goal with H : forall o, ~ _ |- _ =>
         assert (X : forall o, ~ In (EOp o) lg) by (intros o' Ho'; apply (H o'); auto); apply Hrun in X; discriminate X end].
  all: try solve [exfalso; match goal with H : forall o, ~ (EOp ?oo = _ \/ _) |- _ => apply (H oo); auto end].
  all: try solve [edestruct Hc2 as [X|[X X']]; [eauto| |]; subst;
         [try (exfalso; cbn in Hdat; solve [intuition discriminate]); left; try assumption; eauto 6 | right; auto]].
Qed.

Lemma f_step_inv q a f f' : finv f -> f_step q a f = Some f' -> finv f'.
Proof.
  intros [Hsh Hdat Hsco Hx Hfree] H.
  destruct f as [u w st nf da su fc fs ss pq de lg].
  unfold f_step, u_step, w_step, c_step, free, touch, reset in H; cbv zeta in H; pr.
  destruct a.
  all: pr; brk H; try discriminate H; injection H as <-; subst; pr.
  all: unfold shape, live, handed in Hsh; pr.
  all: repeat match goal with
       | x : upc |- _ => destruct x; cbn -[In cnt] in *; crush
       | x : wpc |- _ => destruct x; cbn -[In cnt] in *; crush
       | x : cpc |- _ => destruct x; cbn -[In cnt] in *; crush
       end.
  all: unfold wpost, wpre in *; cbn -[In cnt] in *; crush; try (exfalso; solve [intuition discriminate]).
  all: constructor; unfold shape, live, handed, wpre, wpost; cbn -[In cnt]; cbn [cnt isD isS isX isF nat_of].
  all: try assumption.
  all: try solve [intuition (first [discriminate|congruence|lia])].
  all: split; [reflexivity|split; [intros; first [congruence | match goal with H : _ <> _ -> _ = CbNone |- _ => apply H; discriminate end]|]].
  all: try solve [right; left; eexists; split; [reflexivity|cbn; intuition lia]].
Qed.

(** C52: an operation that does not complete on the thread running the context reports stopped. *)
From Coq Require Import List Arith Bool ZArith Lia.
From Verif Require Import Conc IoUringModel IoUringProofs.
Import ListNotations.

Lemma off_step g s a s' i r : step g s a = Some s' -> In (EDone i r false) (log s') -> In (EDone i r false) (log s) \/ r = RStp.
Proof.
  intros H. cases H; pr; repeat match goal with |- context [if ?b then _ else _] => destruct b end; pr; intros X;
    repeat match goal with X : In _ (_ :: _) |- _ => destruct X as [X|X]; [try discriminate X; try (injection X as <- <-; auto)|] end; auto.
Qed.
(** A value is delivered only by the thread that runs the context; a refused operation is reported stopped. *)
Theorem iouring_off_runner_means_stopped : forall g l s i r, runs g l init = Some s -> In (EDone i r false) (log s) -> r = RStp.
Proof.
  intros g l s i r H. assert (G : forall l s0, runs g l s0 = Some s -> (In (EDone i r false) (log s0) -> r = RStp) -> In (EDone i r false) (log s) -> r = RStp).
  { clear. induction l as [|a l IH]; cbn; intros s0 H I; [injection H as <-; auto|]. destruct (step g s0 a) as [s1|] eqn:E; [|discriminate].
    apply (IH _ H). intros X. destruct (off_step _ _ _ _ _ _ E X); auto. }
  apply (G _ _ H). cbn. tauto.
Qed.

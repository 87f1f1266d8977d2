(** The order of events, and reachability (C50). *)
From Coq Require Import List ZArith Bool Arith Lia.
From Verif Require Import Conc AsyncFutureModel AsyncFutureProofs.
Import ListNotations.
Set Implicit Arguments.

(** The order of events in one future's history (newest first). *)
Fixpoint ordered (l : list event) : Prop :=
  match l with
  | [] => True
  | e :: r =>
      match e with
      | EDeliver o => In EStart r /\ exists o', In (EOp o') r /\ (o = o' \/ o = Stp /\ In EReq r)
      | EFree => (exists o, In (EOp o) r) /\ (In EDrop r \/ exists o, In (EDeliver o) r)
      | EUaf _ => In EDrop r /\ In EReq r
      | EStart => ~ In EDrop r
      | EDrop => ~ In EStart r
      | _ => True
      end /\ ordered r
  end.

Record oinv (f : fut) : Prop := {
  o_ord : ordered (log f);
  o_nof : nof f = true -> In EDrop (log f);
  o_fx : (match up f with UFd | UFx | UOd | UOx | UOy | UOz => True | _ => False end) -> In EDrop (log f);
  o_pre : (match up f with UNew | UF | UO => True | _ => False end) -> ~ In EDrop (log f);
  o_run : fcon f = CbRun \/ fcon f = CbRan -> preq f = true
}.

Lemma new_oinv q : oinv (new_fut q).
Proof. constructor; simpl; auto; try tauto; try discriminate. intros [H|H]; discriminate H. Qed.

Lemma cnt_in (p : event -> bool) l e : In e l -> p e = true -> 0 < cnt p l.
Proof. induction l as [|x l IH]; simpl; [tauto|]. intros [<-|H] E; [rewrite E; lia|]. specialize (IH H E). lia. Qed.

Lemma cnt_isS0 l : cnt isS l = 0 <-> ~ In EStart l.
Proof. induction l as [|[] l IH]; cbn [cnt In isS nat_of Nat.b2n]; try (split; intros; [intros [X|X]; [discriminate|tauto]|tauto]); split; intros; try tauto; try lia. Qed.
Lemma cnt_isD0 l : cnt isD l <> 0 -> exists o, In (EDeliver o) l.
Proof. induction l as [|[] l IH]; cbn [cnt In isD nat_of Nat.b2n]; intros H; try solve [destruct IH as [o' Ho]; [lia|eauto]]; try lia; eauto. Qed.

Lemma f_step_oinv q a f f' : finv f -> linv f -> oinv f -> f_step q a f = Some f' -> oinv f'.
Proof.
  intros Hf Hl [Oo On Ofx Opre Orun] H. pose proof (f_x (f_step_inv q a Hf H)) as Hx'.
  destruct Hf as [Hsh Hdat Hsco Hx Hfree]. destruct Hl as [Hop Hrun Hreq Hc2 Hdel].
  assert (HE : ~ wpre (wp f) -> exists o, In (EOp o) (log f))
    by (intros HN; destruct (dat f) as [o'|] eqn:Ed; [exists o'; apply Hop; auto | exfalso; apply HN, Hdat; reflexivity]).
  destruct f as [u w st nf da su fc fs ss pq de lg].
  unfold f_step, u_step, w_step, c_step, free, touch, reset in H; cbv zeta in H; pr.
  destruct a.
  all: pr; brk H; try discriminate H; injection H as <-; subst; pr.
  all: cbn [cnt isX nat_of Nat.b2n] in Hx'; try (exfalso; clear - Hx'; lia); clear Hx'.
  all: unfold shape, live, handed in Hsh; pr.
  all: constructor; pr; cbn [In ordered]; try assumption.
  all: try solve [clear Hsh Hc2 Hdel Hop; intuition (first [discriminate|congruence])].
  - destruct Hsh as (_ & _ & HP & _). split; [split; [apply HE; destruct w; auto|left; apply Ofx; exact I]|assumption].
  - destruct Hsh as (_ & _ & HP & _). split; [split; [apply HE; destruct w; auto|left; apply Ofx; exact I]|assumption].
  - destruct Hsh as ((_ & _ & _ & _ & HS) & _ & HP & _). split; [split|assumption].
    + destruct (in_dec (fun a b : event => ltac:(repeat decide equality)) EStart lg) as [X|X]; [assumption|].
      apply cnt_isS0 in X. lia.
    + destruct (Hc2 _ (or_introl eq_refl)) as [X|[X1 X2]].
      * exists o. split; [apply Hop; auto|auto].
      * destruct HE as [o' Ho]; [destruct w; auto|]. exists o'. split; [assumption|]. right. split; [assumption|]. apply Hreq; assumption.
  - destruct Hsh as ((_ & _ & _ & HS & _) & _ & HP & _). cbn in HS.
    split; [split; [apply HE; destruct w; auto|right; apply cnt_isD0; lia]|assumption].
  - split; [split; [apply HE; auto|left]|assumption]. apply On.
    destruct u; cbn in Hsh; crush; first [assumption | congruence | discriminate | tauto].
  - destruct u; cbn in Hsh; try (exfalso; intuition discriminate).
    destruct Hsh as (_ & _ & [HH|[(c & Ec & _ & _ & _ & _ & HS)|HH]]); try (exfalso; tauto).
    split; [split|assumption].
    + destruct (in_dec (fun a b : event => ltac:(repeat decide equality)) EStart lg) as [X|X]; [assumption|].
      apply cnt_isS0 in X. lia.
    + destruct (Hc2 _ (or_intror eq_refl)) as [X|[X1 X2]].
      * exists o. split; [apply Hop; auto|auto].
      * destruct HE as [o' Ho]; [auto|]. exists o'. split; [assumption|]. right. split; [assumption|]. apply Hreq; assumption.
  - destruct u; cbn in Hsh; try (exfalso; intuition discriminate).
    destruct Hsh as (_ & _ & [HH|[(c & Ec & _ & _ & _ & HD & HS)|HH]]); try (exfalso; tauto).
    injection Ec as <-. cbn in HD.
    split; [split; [apply HE; auto|right; apply cnt_isD0; lia]|assumption].
  - split; [|assumption]. apply cnt_isS0. tauto.
  - split; [|assumption]. apply cnt_isS0. tauto.
  - split; [|assumption]. split; [|apply Hreq, Orun; auto].
    destruct u; cbn in Hsh; try (exfalso; intuition (discriminate || congruence)); try (apply Ofx; exact I).
    exfalso. destruct Hsh as (_ & X & Y).
    destruct w as [| | | |[]|]; try (discriminate X; discriminate).
    cbn in Y; crush.
Qed.

Lemma runs_app l1 l2 s : runs (l1 ++ l2) s = match runs l1 s with Some s' => runs l2 s' | None => None end.
Proof. revert s. induction l1 as [|a l IH]; intros s; cbn [app runs]; [reflexivity|]. destruct (step a s); auto. Qed.

Lemma reach_ind (P : state -> Prop) :
  P init -> (forall s a s', reachable s -> P s -> step a s = Some s' -> P s') -> forall s, reachable s -> P s.
Proof.
  intros H0 HS s [acts H]. revert s H. induction acts as [|a l IH] using rev_ind; intros s H.
  - injection H as <-. exact H0.
  - rewrite runs_app in H. destruct (runs l init) as [s1|] eqn:E; [|discriminate].
    cbn [runs] in H. destruct (step a s1) as [s2|] eqn:E2; [|discriminate]. injection H as <-.
    apply (HS s1 a); [exists l; exact E | apply IH; reflexivity | exact E2].
Qed.

Lemma reach_all s : reachable s -> forall i f, nth_error (futs s) i = Some f -> finv f /\ linv f /\ oinv f.
Proof.
  revert s. apply (@reach_ind (fun s => forall i f, nth_error (futs s) i = Some f -> finv f /\ linv f /\ oinv f)).
  - intros i f H. destruct i; discriminate.
  - intros s a s' _ IH H i f Hi. destruct a as [| |j a]; cbn [step] in H.
    + injection H as <-. cbn [futs] in Hi. destruct (Nat.lt_ge_cases i (length (futs s))) as [L|L].
      * rewrite nth_error_app1 in Hi by assumption. eauto.
      * rewrite nth_error_app2 in Hi by assumption. destruct (i - length (futs s)) as [|[|]]; cbn in Hi; try discriminate.
        injection Hi as <-. split; [apply new_inv|split; [apply new_linv|apply new_oinv]].
    + destruct (sreq s); [discriminate|]. injection H as <-. eauto.
    + destruct (nth_error (futs s) j) as [g|] eqn:Ej; [|discriminate].
      destruct (f_step (sreq s) a g) as [g'|] eqn:Eg; [|discriminate]. injection H as <-. cbn [futs] in Hi.
      rewrite (nth_upd _ _ _ _ Ej) in Hi. destruct (j =? i) eqn:Eij.
      * injection Hi as <-. destruct (IH _ _ Ej) as (A & B & C).
        split; [eapply f_step_inv; eauto|split; [eapply f_step_linv; eauto|eapply f_step_oinv; eauto]].
      * eauto.
Qed.

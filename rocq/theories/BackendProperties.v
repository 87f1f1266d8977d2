(** C59: replacing the backend of parallel_scheduler. *)
From Coq Require Import List Bool Arith Lia.
From Verif Require Import Conc BackendModel.
Import ListNotations.
Set Implicit Arguments.

(** ** Specification: functions of the log alone (newest first) *)
(** the instance of the latest completed replacement, or else the first one returned *)
Fixpoint cur (l : list event) : option nat :=
  match l with
  | [] => None
  | ESet _ _ _ i :: _ => Some i
  | EGet _ i :: l => match cur l with Some j => Some j | None => Some i end
  | _ :: l => cur l
  end.
(** the factory of the latest completed replacement; 0 is the default one *)
Fixpoint curfac (l : list event) : nat :=
  match l with
  | [] => 0
  | ESet _ f _ _ :: _ => f
  | _ :: l => curfac l
  end.
(** thread t is inside a replacement *)
Fixpoint inset (t : nat) (l : list event) : bool :=
  match l with
  | [] => false
  | ESetCall u _ :: l => if t =? u then true else inset t l
  | ESet u _ _ _ :: l => if t =? u then false else inset t l
  | _ :: l => inset t l
  end.
Definition quiet l := forall t, inset t l = false.
(** no replacement is called while another is in progress *)
Fixpoint one_at_a_time (l : list event) : Prop :=
  match l with
  | [] => True
  | ESetCall _ _ :: l => quiet l /\ one_at_a_time l
  | _ :: l => one_at_a_time l
  end.
(** the very first operation has returned before another one is called *)
Fixpoint first_alone (l : list event) : Prop :=
  match l with
  | [] => True
  | (ESetCall _ _ | EGetCall _) :: l => (l = [] \/ cur l <> None) /\ first_alone l
  | _ :: l => first_alone l
  end.
(** no replacement has been in progress since thread t called get *)
Fixpoint undisturbed (t : nat) (l : list event) : Prop :=
  match l with
  | [] => False
  | EGetCall u :: l => if t =? u then quiet l else undisturbed t l
  | ESetCall _ _ :: _ => False
  | _ :: l => undisturbed t l
  end.

Definition reachable s := exists l, runs l init = Some s.
Definition crit p := match p with G1 | G2 _ | G5 _ | G6 _ | S3 _ _ _ | S4 _ _ _ => true | _ => false end.
Definition inS p := match p with S0 _ | S1 _ _ | S2 _ _ _ | S3 _ _ _ | S4 _ _ _ => true | _ => false end.

(** ** Invariants *)
Definition origin (l : list event) f := f = 0 \/ exists u, In (ESetCall u f) l.
Definition pin (s : state) p : Prop :=
  match p with
  | G2 (Some i) => i < next s
  | G4 i | G5 i => i < next s
  | G6 i => i < next s /\ inst s = Some i
  | S0 f => origin (log s) f
  | S1 f old => origin (log s) f /\ origin (log s) old
  | S2 f old i | S3 f old i => origin (log s) f /\ origin (log s) old /\ i < next s /\ made s i = f
  | S4 f old i => origin (log s) f /\ origin (log s) old /\ i < next s /\ made s i = f /\ inst s = Some i
  | _ => True
  end.
Record inv (s : state) : Prop := {
  i_crit : forall t, crit (th s t) = true -> lk s = true;
  i_mut : forall t u, crit (th s t) = true -> crit (th s u) = true -> t = u;
  i_lk : lk s = true -> exists t, crit (th s t) = true;
  i_made : forall i, i < next s -> origin (log s) (made s i);
  i_fac : origin (log s) (fac s);
  i_inst : forall i, inst s = Some i -> i < next s;
  i_pin : forall t, pin s (th s t);
  i_inS : forall t, inset t (log s) = inS (th s t);
  i_get : forall l1 l2 t i, log s = l1 ++ EGet t i :: l2 -> i < next s /\ origin l2 (made s i);
  i_set : forall l1 l2 t f old i, log s = l1 ++ ESet t f old i :: l2 -> i < next s /\ made s i = f /\ origin l2 f /\ origin l2 old
}.

Lemma origin_cons : forall e l f, origin l f -> origin (e :: l) f.
Proof. intros e l f [H|[u H]]; [left|right; exists u; right]; auto. Qed.
Lemma fset_eq : forall A (f : nat -> A) x v, fset f x v x = v.
Proof. intros; apply fset_same. Qed.
Ltac fs := repeat match goal with
  | |- context[fset _ ?x _ ?x] => rewrite fset_eq
  | H : context[fset _ ?x _ ?x] |- _ => rewrite fset_eq in H
  | H : ?y <> ?x |- context[fset ?f ?x ?v ?y] => rewrite (@fset_other _ f x y v) by auto
  | H : ?y <> ?x, K : context[fset ?f ?x ?v ?y] |- _ => rewrite (@fset_other _ f x y v) in K by auto
  end.
Lemma inv_init : inv init.
Proof.
  constructor; cbn; intros; try discriminate; try lia; auto; try (left; reflexivity).
  - destruct l1; discriminate.
  - destruct l1; discriminate.
Qed.

(** What a step may change that other threads' [pin] sees. *)
Lemma pin_mono : forall s s' p, pin s p -> (forall e, In e (log s) -> In e (log s')) -> next s <= next s'
  -> (forall i, i < next s -> made s' i = made s i) -> (inst s' = inst s \/ crit p = false) -> pin s' p.
Proof.
  intros s s' p H L N M I.
  assert (O : forall f, origin (log s) f -> origin (log s') f).
  { intros f [E|[u E]]; [left; auto | right; exists u; auto]. }
  destruct p as [| | |[i|]| |i|i|i|f|f old|f old i|f old i|f old i]; cbn in *; auto; try lia.
  - destruct I as [I|I]; try discriminate. rewrite I. intuition lia.
  - intuition.
  - destruct H as (A & B & C & D). rewrite M by auto. repeat split; auto; lia.
  - destruct H as (A & B & C & D). rewrite M by auto. repeat split; auto; lia.
  - destruct H as (A & B & C & D & E). rewrite M by auto. destruct I as [I|I]; try discriminate. rewrite I. repeat split; auto; lia.
Qed.

Ltac sp t := let u := fresh "u" in intros u; destruct (Nat.eq_dec u t); [subst u|]; cbn; fs; cbn; auto.

Lemma inv_step : forall s a s', inv s -> step s a = Some s' -> inv s'.
Proof.
  intros s a s' [C M L Q F K P SS G T] H.
  assert (X : forall t, crit (th s t) = true -> forall u, u <> t -> crit (th s u) = false).
  { intros t E u N. destruct (crit (th s u)) eqn:E'; auto. elim N. auto. }
  assert (Z : lk s = false -> forall u, crit (th s u) = false).
  { intros E u. destruct (crit (th s u)) eqn:E'; auto. rewrite (C _ E') in E; discriminate. }
  destruct a as [t|t f|t]; cbn in H; destruct (th s t) as [| | |[i|]| |i|i|i|f'|f' old|f' old i|f' old i|f' old i] eqn:W; try discriminate H;
    unfold acquire in H; try (destruct (lk s) eqn:Y; [discriminate H|]); injection H as <-;
    pose proof (P t) as Pt; rewrite W in Pt; cbn in Pt; pose proof (X t) as Xt; rewrite W in Xt; cbn in Xt; pose proof (C t) as Ct; rewrite W in Ct; cbn in Ct;
    pose proof (SS t) as St; rewrite W in St; cbn in St.
  all: constructor; cbn.
  (* crit, mut *)
  all: try (sp t; fail).
  all: try (sp t; intros; eauto; try discriminate; rewrite (Xt eq_refl u) in H by auto; discriminate).
  all: try (sp t; intros; eauto; try discriminate; rewrite Z in H by auto; discriminate).
  all: try (intros u v; destruct (Nat.eq_dec u t), (Nat.eq_dec v t); subst; fs; cbn; intros A B; auto; try discriminate; eauto;
            try (rewrite (Xt eq_refl) in B by auto; discriminate); try (rewrite (Xt eq_refl) in A by auto; discriminate);
            try (rewrite Z in A by auto; discriminate); try (rewrite Z in B by auto; discriminate); fail).
  (* lk *)
  all: try (intros; discriminate).
  all: try (intros _; exists t; fs; reflexivity).
  all: try (intros A; destruct (L A) as [u B]; exists u; destruct (Nat.eq_dec u t); [subst; rewrite W in B; discriminate|]; fs; auto; fail).
  (* made, fac, inst *)
  all: try (intros; apply origin_cons; auto; fail).
  all: try (apply origin_cons; auto; fail).
  all: try assumption.
  all: try (intros j A; injection A as <-; solve [auto | apply Pt | lia]).
  all: try (intros j A; specialize (K _ A); lia).
  all: try (intros j A; destruct (Nat.eq_dec j (next s)); [subst; fs; solve [auto | apply Pt] | fs; apply Q; lia]).
  (* inS *)
  all: try (intros u; destruct (Nat.eq_dec u t) as [->|N]; [fs; rewrite ?Nat.eqb_refl; auto; rewrite SS, W; reflexivity
            | fs; try (apply Nat.eqb_neq in N; rewrite N); auto]; fail).
  (* pin *)
  all: try (intros u; destruct (Nat.eq_dec u t) as [->|N]; fs;
            [ cbn | eapply pin_mono; [apply P | cbn; auto | cbn; lia | cbn; intros; try (rewrite fset_other by lia); auto | cbn; solve [auto | right; auto]]];
            try tauto; auto; try (right; exists t; left; reflexivity); fail).
  (* logs *)
  all: try (intros [|e l1] l2 u j A; cbn in A; inversion A; subst; try (eapply G; eauto; fail); split; [solve [auto|apply Pt] | apply Q; solve [auto|apply Pt]]; fail).
  all: try (intros [|e l1] l2 u f1 o1 j A; cbn in A; inversion A; subst; try (eapply T; eauto; fail); intuition; fail).
  all: try (intros l1 l2 u j A; destruct (G _ _ _ _ A) as [B B']; split; [lia|]; rewrite fset_other by lia; auto; fail).
  all: try (intros l1 l2 u f1 o1 j A; destruct (T _ _ _ _ _ _ A) as (B & B' & B''); split; [lia|]; rewrite fset_other by lia; auto; fail).
  - intros [|e l1] l2 u j A; cbn in A; inversion A; subst; eapply G; eauto.
  - intros [|e l1] l2 u j A; cbn in A; inversion A; subst; eapply G; eauto.
  - intros u; destruct (Nat.eq_dec u t) as [->|N]; fs.
    + cbn. destruct (inst s) as [j|] eqn:I; auto.
    + eapply pin_mono; [apply P | cbn; auto ..].
  - intros u; destruct (Nat.eq_dec u t) as [->|N]; fs.
    + cbn. destruct Pt. fs. repeat split; auto.
    + eapply pin_mono; [apply P | cbn; auto | cbn; lia | cbn; intros; rewrite fset_other by lia; auto | cbn; auto].
  - intros [|e l1] l2 u j A; cbn in A; inversion A; subst; eapply G; eauto.
Qed.
Lemma runs_inv : forall (I : state -> Prop), (forall s a s', I s -> step s a = Some s' -> I s') -> forall l s s', I s -> runs l s = Some s' -> I s'.
Proof.
  intros I St l. induction l as [|a l IH]; cbn; intros s s' Hs H.
  - injection H as <-; auto.
  - destruct (step s a) as [s1|] eqn:E; [|discriminate]. eauto.
Qed.
Lemma reach_inv : forall s, reachable s -> inv s.
Proof. intros s [l H]. exact (@runs_inv inv inv_step l _ _ inv_init H). Qed.

(** ** Replacements one at a time *)
Lemma inset_one : forall l, one_at_a_time l -> forall t u, inset t l = true -> inset u l = true -> t = u.
Proof.
  induction l as [|e l IH]; cbn; try discriminate. intros H t u.
  destruct e as [v|v i|v f|v f o i]; auto.
  - destruct H as [Qt H]. destruct (Nat.eqb_spec t v), (Nat.eqb_spec u v); intros A B; try congruence; rewrite Qt in *; discriminate.
  - destruct (Nat.eqb_spec t v), (Nat.eqb_spec u v); intros A B; try congruence; auto.
Qed.
Lemma undisturbed_quiet : forall t l, undisturbed t l -> quiet l.
Proof.
  intros t. induction l as [|e l IH]; cbn; [tauto|]. intros H u. cbn.
  destruct e as [v|v i|v f|v f o i]; cbn in *; try tauto; try (apply IH; auto; fail).
  - destruct (Nat.eqb_spec t v); [apply H | apply IH; auto].
  - destruct (u =? v); auto. apply IH; auto.
Qed.

Record inv1 (s : state) : Prop := {
  j_inv : inv s;
  j_quiet : quiet (log s) -> fac s = curfac (log s);
  j_fac : forall t, match th s t with
          | S0 _ => fac s = curfac (log s)
          | S1 f old | S2 f old _ | S3 f old _ | S4 f old _ => fac s = f /\ old = curfac (log s)
          | _ => True end;
  j_set : forall l1 l2 t f old i, log s = l1 ++ ESet t f old i :: l2 -> old = curfac l2
}.
Lemma one_tl : forall e l, one_at_a_time (e :: l) -> one_at_a_time l.
Proof. intros [] l; cbn; tauto. Qed.
Lemma log_step : forall s a s', step s a = Some s' -> log s' = log s \/ exists e, log s' = e :: log s.
Proof.
  intros s a s' H. destruct a as [t|t f|t]; cbn in H; destruct (th s t) as [| | |[i|]| |i|i|i|f'|f' old|f' old i|f' old i|f' old i];
    try discriminate H; unfold acquire in H; try (destruct (lk s); [discriminate H|]); injection H as <-; cbn; eauto.
Qed.
Lemma inv1_step : forall s a s', (one_at_a_time (log s) -> inv1 s) -> step s a = Some s' -> one_at_a_time (log s') -> inv1 s'.
Proof.
  intros s a s' J H O.
  assert (O1 : one_at_a_time (log s)).
  { destruct (log_step _ _ H) as [E|[e E]]; rewrite E in O; auto. eapply one_tl; eauto. }
  destruct (J O1) as [I Q F T]. pose proof (inv_step _ I H) as I'.
  assert (U : forall t, inS (th s t) = true -> forall u, u <> t -> inS (th s u) = false).
  { intros t A u N. destruct (inS (th s u)) eqn:B; auto. elim N. apply (inset_one _ O1); rewrite (i_inS I); auto. }
  constructor; auto.
  all: destruct a as [t|t f|t]; cbn in H; destruct (th s t) as [| | |[i|]| |i|i|i|f'|f' old|f' old i|f' old i|f' old i] eqn:W; try discriminate H;
    unfold acquire in H; try (destruct (lk s) eqn:Y; [discriminate H|]); injection H as <-; cbn in *;
    pose proof (F t) as Ft; rewrite W in Ft; cbn in Ft; pose proof (U t) as Ut; rewrite W in Ut; cbn in Ut; auto.
  - intros A. specialize (A t). cbn in A. rewrite Nat.eqb_refl in A. discriminate.
  - intros A. specialize (A t). rewrite (i_inS I), W in A. discriminate.
  - intros A. apply Ft.
  - sp t. apply F.
  - sp t; [|apply F]. destruct O as [O _]. apply Q; auto.
  - sp t. apply F.
  - sp t. apply F.
  - sp t. apply F.
  - sp t. apply F.
  - sp t. apply F.
  - sp t. apply F.
  - sp t. apply F.
  - sp t. apply F.
  - sp t. specialize (Ut eq_refl u n). destruct (th s u); auto; discriminate.
  - sp t. apply F.
  - sp t. apply F.
  - sp t. apply F.
  - sp t. specialize (Ut eq_refl u n). destruct (th s u); auto; discriminate.
  - intros [|e l1] l2 u f1 o1 j A; inversion A; subst; eapply T; eauto.
  - intros [|e l1] l2 u f1 o1 j A; inversion A; subst; eapply T; eauto.
  - intros [|e l1] l2 u f1 o1 j A; inversion A; subst; eapply T; eauto.
  - intros [|e l1] l2 u f1 o1 j A; inversion A; subst; eapply T; eauto.
  - intros [|e l1] l2 u f1 o1 j A; inversion A; subst; [apply Ft | eapply T; eauto].
Qed.
Lemma inv1_init : inv1 init.
Proof.
  constructor; [apply inv_init|..]; cbn; auto. intros [|]; discriminate.
Qed.
Lemma reach_inv1 : forall s, reachable s -> one_at_a_time (log s) -> inv1 s.
Proof.
  intros s [l H]. refine (@runs_inv (fun s => one_at_a_time (log s) -> inv1 s) _ l _ _ _ H).
  - intros; eapply inv1_step; eauto.
  - intros; apply inv1_init.
Qed.

(** ** ... and the first operation alone *)
Record inv2 (s : state) : Prop := {
  k_inv : inv s;
  k_cur : match cur (log s) with
    | None => (log s = [] /\ (forall t, th s t = Idle) /\ inst s = None)
        \/ (exists t, log s = [EGetCall t] /\ (forall u, u <> t -> th s u = Idle) /\
             match th s t with G0 | G1 | G2 None | G3 | G4 _ | G5 _ => inst s = None | G6 _ => True | _ => False end)
        \/ (exists t f, log s = [ESetCall t f] /\ (forall u, u <> t -> th s u = Idle))
    | Some c => inst s <> None /\ (quiet (log s) -> inst s = Some c) /\
        forall t, match th s t with
          | G2 None | G3 | G4 _ | G5 _ | G6 _ => False
          | G2 (Some i) => undisturbed t (log s) -> i = c
          | _ => True end
    end;
  k_get : forall l1 l2 t i, log s = l1 ++ EGet t i :: l2 -> undisturbed t l2 -> cur (EGet t i :: l2) = Some i
}.
Lemma first_tl : forall e l, first_alone (e :: l) -> first_alone l.
Proof. intros [] l; cbn; tauto. Qed.
Definition orderly l := one_at_a_time l /\ first_alone l.
Lemma inv2_step : forall s a s', (orderly (log s) -> inv2 s) -> step s a = Some s' -> orderly (log s') -> inv2 s'.
Proof.
  intros s a s' J H [O N].
  assert (O1 : one_at_a_time (log s)).
  { destruct (log_step _ _ H) as [E|[e E]]; rewrite E in O; auto. eapply one_tl; eauto. }
  assert (N1 : first_alone (log s)).
  { destruct (log_step _ _ H) as [E|[e E]]; rewrite E in N; auto. eapply first_tl; eauto. }
  destruct (J (conj O1 N1)) as [I K G]. pose proof (inv_step _ I H) as I'.
  destruct (cur (log s)) as [c|] eqn:Hc.
  - (* a current instance *)
    destruct K as (K1 & K2 & K3).
    assert (LG : forall e, (forall t i, e <> EGet t i) -> log s' = e :: log s -> forall l1 l2 t i, log s' = l1 ++ EGet t i :: l2 -> undisturbed t l2 -> cur (EGet t i :: l2) = Some i).
    { intros e E1 E2 [|x l1] l2 t i A B; rewrite E2 in A; cbn in A; inversion A; [subst; elim (E1 t i); auto|]. eapply G; eauto. }
    assert (LS : log s' = log s -> forall l1 l2 t i, log s' = l1 ++ EGet t i :: l2 -> undisturbed t l2 -> cur (EGet t i :: l2) = Some i).
    { intros E. rewrite E. apply G. }
    constructor; auto.
    + destruct a as [t|t f|t]; cbn in H; destruct (th s t) as [| | |[i|]| |i|i|i|f'|f' old|f' old i|f' old i|f' old i] eqn:W; try discriminate H;
        unfold acquire in H; try (destruct (lk s) eqn:Y; [discriminate H|]); injection H as <-; cbn in *;
        pose proof (K3 t) as Kt; rewrite W in Kt; cbn in Kt; try contradiction Kt; rewrite ?Hc.
      * split; [|split]; auto. sp t. specialize (K3 u). destruct (th s u) as [| | |[]| | | | | | | | | ]; auto.
        apply Nat.eqb_neq in n. rewrite n. auto.
      * split; [|split]; auto. { intros A. specialize (A t). cbn in A. rewrite Nat.eqb_refl in A. discriminate. }
        sp t. specialize (K3 u). destruct (th s u) as [| | |[]| | | | | | | | | ]; auto. tauto.
      * split; [|split]; auto. sp t. apply K3.
      * split; [|split]; auto. sp t; [|apply K3]. destruct (inst s) as [j|] eqn:E; [|auto]. intros A. apply undisturbed_quiet in A. specialize (K2 A). congruence.
      * split; [|split]; auto. sp t. specialize (K3 u). destruct (th s u) as [| | |[]| | | | | | | | | ]; auto.
      * split; [|split]; auto. sp t. apply K3.
      * split; [|split]; auto. sp t. apply K3.
      * split; [|split]; auto. sp t. apply K3.
      * split; [discriminate|split]; auto. { intros A. specialize (A t). rewrite (i_inS I), W in A. discriminate. } sp t. apply K3.
      * assert (E : inst s = Some i) by (pose proof (i_pin I t) as P; rewrite W in P; apply P).
        split; [congruence|split]; auto. sp t. specialize (K3 u). destruct (th s u) as [| | |[]| | | | | | | | | ] eqn:W2; auto.
        intros A. apply undisturbed_quiet in A. specialize (A t). rewrite (i_inS I), W in A. discriminate.
    + destruct a as [t|t f|t]; cbn in H; destruct (th s t) as [| | |[i|]| |i|i|i|f'|f' old|f' old i|f' old i|f' old i] eqn:W; try discriminate H;
        unfold acquire in H; try (destruct (lk s) eqn:Y; [discriminate H|]);
        pose proof (K3 t) as Kt; rewrite W in Kt; cbn in Kt; try contradiction Kt;
        try (injection H as <-; eapply LS; reflexivity);
        try (injection H as <-; eapply LG; [|reflexivity]; discriminate).
      injection H as <-. intros [|x l1] l2 u j A B; cbn in A; inversion A; [|eapply G; eauto]. subst. cbn. rewrite Hc. f_equal. symmetry. auto.
  - destruct K as [(L & Id & E)|[(t & L & Id & E)|(t & f & L & Id)]].
    + destruct a as [t|t f|t]; cbn in H; rewrite Id in H; try discriminate; injection H as <-; constructor; auto; cbn; rewrite L; cbn.
      * right; left. exists t. repeat split; auto. { intros u A. fs. auto. } fs. auto.
      * intros [|x [|]] l2 u j A; discriminate.
      * right; right. exists t, f. repeat split; auto. intros u A. fs. auto.
      * intros [|x [|]] l2 u j A; discriminate.
    + destruct a as [u|u f|u]; cbn in H.
      * destruct (th s u); try discriminate; injection H as <-. cbn in N. rewrite L in N. cbn in N. destruct N as [[N|N] _]; [discriminate | tauto].
      * destruct (th s u); try discriminate; injection H as <-. cbn in N. rewrite L in N. cbn in N. destruct N as [[N|N] _]; [discriminate | tauto].
      * destruct (Nat.eq_dec u t) as [->|D]; [|rewrite Id in H by auto; discriminate].
        assert (NG : forall l1 l2 v j, [EGetCall t] = l1 ++ EGet v j :: l2 -> undisturbed v l2 -> cur (EGet v j :: l2) = Some j).
        { intros [|x [|]] l2 v j A; discriminate. }
        destruct (th s t) as [| | |[i|]| |i|i|i|f'|f' old|f' old i|f' old i|f' old i] eqn:W; try contradiction E;
          unfold acquire in H; try (destruct (lk s) eqn:Y; [discriminate H|]); injection H as <-; constructor; auto; cbn; rewrite L; auto; cbn.
        { right; left; exists t; split; auto. split; [intros u A; fs; auto|]. fs. auto. }
        { right; left; exists t; split; auto. split; [intros u A; fs; auto|]. fs. rewrite E; auto. }
        { right; left; exists t; split; auto. split; [intros u A; fs; auto|]. fs. auto. }
        { right; left; exists t; split; auto. split; [intros u A; fs; auto|]. fs. auto. }
        { right; left; exists t; split; auto. split; [intros u A; fs; auto|]. fs. auto. }
        { right; left; exists t; split; auto. split; [intros u A; fs; auto|]. fs. auto. }
        { assert (E1 : inst s = Some i) by (pose proof (i_pin I t) as P; rewrite W in P; apply P).
          rewrite E1. split; [discriminate|]. split; auto. sp t. rewrite Id; auto. }
        { intros [|x [|y [|]]] l2 v j A B; inversion A; subst. auto. }
    + destruct a as [u|u g|u]; cbn in H.
      * destruct (th s u); try discriminate; injection H as <-. cbn in N. rewrite L in N. cbn in N. destruct N as [[N|N] _]; [discriminate | tauto].
      * destruct (th s u); try discriminate; injection H as <-. cbn in N. rewrite L in N. cbn in N. destruct N as [[N|N] _]; [discriminate | tauto].
      * destruct (Nat.eq_dec u t) as [->|D]; [|rewrite Id in H by auto; discriminate].
        assert (NG : forall l1 l2 v j, [ESetCall t f] = l1 ++ EGet v j :: l2 -> undisturbed v l2 -> cur (EGet v j :: l2) = Some j).
        { intros [|x [|]] l2 v j A; discriminate. }
        assert (NI : inS (th s t) = true). { rewrite <- (i_inS I), L. cbn. rewrite Nat.eqb_refl. auto. }
        destruct (th s t) as [| | |[i|]| |i|i|i|f'|f' old|f' old i|f' old i|f' old i] eqn:W; try discriminate NI;
          unfold acquire in H; try (destruct (lk s) eqn:Y; [discriminate H|]); injection H as <-; constructor; auto; cbn; rewrite L; auto; cbn.
        { right; right; exists t, f; split; auto. intros u A; fs; auto. }
        { right; right; exists t, f; split; auto. intros u A; fs; auto. }
        { right; right; exists t, f; split; auto. intros u A; fs; auto. }
        { right; right; exists t, f; split; auto. intros u A; fs; auto. }
        { assert (E1 : inst s = Some i) by (pose proof (i_pin I t) as P; rewrite W in P; apply P).
          rewrite E1. split; [discriminate|]. split; auto. sp t. rewrite Id; auto. }
        { intros [|x [|y [|]]] l2 v j A B; inversion A; subst. }
Qed.
Lemma inv2_init : inv2 init.
Proof. constructor; [apply inv_init|..]; cbn; auto. intros [|]; discriminate. Qed.
Lemma reach_inv2 : forall s, reachable s -> orderly (log s) -> inv2 s.
Proof.
  intros s [l H]. refine (@runs_inv (fun s => orderly (log s) -> inv2 s) _ l _ _ _ H).
  - intros; eapply inv2_step; eauto.
  - intros; apply inv2_init.
Qed.

(** ** C59 *)
(** A get that no replacement overlaps returns the current instance: that of the latest completed replacement, or, if there has been none,
    the one that the first get returned -- provided that the first operation of the process has returned before another is called, and
    that replacements do not overlap each other.  Both provisos are needed, see the refutations. *)
Theorem backend_current_partial : forall s, reachable s -> one_at_a_time (log s) -> first_alone (log s) ->
  forall l1 l2 t i, log s = l1 ++ EGet t i :: l2 -> undisturbed t l2 -> cur (EGet t i :: l2) = Some i.
Proof. intros s R A B. apply (k_get (reach_inv2 R (conj A B))). Qed.

(** Every instance that a get returns was made by the default factory or by the factory of an earlier call of set; a set returns such a factory too, and the
    instance it has installed was made by its own argument. *)
Theorem backend_origin : forall s, reachable s ->
  (forall l1 l2 t i, log s = l1 ++ EGet t i :: l2 -> made s i = 0 \/ exists u, In (ESetCall u (made s i)) l2) /\
  (forall l1 l2 t f old i, log s = l1 ++ ESet t f old i :: l2 -> made s i = f /\ (old = 0 \/ exists u, In (ESetCall u old) l2)).
Proof.
  intros s R. pose proof (reach_inv R) as I. split.
  - intros l1 l2 t i H. apply (i_get I _ _ _ _ H).
  - intros l1 l2 t f old i H. destruct (i_set I _ _ _ _ _ _ H) as (A & B & C & D). auto.
Qed.

(** If replacements do not overlap, each returns the factory of the one before it, and the first returns the default factory. *)
Theorem backend_previous_factory : forall s, reachable s -> one_at_a_time (log s) ->
  forall l1 l2 t f old i, log s = l1 ++ ESet t f old i :: l2 -> old = curfac l2.
Proof. intros s R A. apply (j_set (reach_inv1 R A)). Qed.

(** At most one thread at a time is between taking and releasing the lock (so that the copies and assignments of the shared pointer never race), and nothing
    deadlocks: while an operation is in progress, some thread can take a step. *)
Theorem backend_lock : forall s, reachable s ->
  (forall t u, crit (th s t) = true -> crit (th s u) = true -> t = u) /\
  ((exists t, th s t <> Idle) -> exists t s', step s (AStep t) = Some s').
Proof.
  intros s R. pose proof (reach_inv R) as I. split; [apply (i_mut I)|].
  intros [t Ht]. destruct (lk s) eqn:Y.
  - destruct (i_lk I Y) as [u Hu]. exists u. cbn. destruct (th s u) as [| | |[i|]| |i|i|i|f'|f' old|f' old i|f' old i|f' old i]; try discriminate; eauto.
  - exists t. cbn. unfold acquire. rewrite Y. destruct (th s t) as [| | |[i|]| |i|i|i|f'|f' old|f' old i|f' old i|f' old i]; eauto. congruence.
Qed.

(** Refuted: two first gets that overlap return different instances, and with no replacement at all. *)
Definition two_firsts := [AGet 0; AStep 0; AStep 0; AStep 0; AGet 1; AStep 1; AStep 1; AStep 1; AStep 0; AStep 0; AStep 0; AStep 0; AStep 1; AStep 1; AStep 1; AStep 1].
Theorem backend_single_instance_refuted :
  ~ (forall s, reachable s -> (forall t f, ~ In (ESetCall t f) (log s)) ->
       forall t i u j, In (EGet t i) (log s) -> In (EGet u j) (log s) -> i = j).
Proof.
  intros X. destruct (runs two_firsts init) as [s|] eqn:E; [|vm_compute in E; discriminate].
  assert (L : log s = [EGet 1 1; EGet 0 0; EGetCall 1; EGetCall 0]). { vm_compute in E. injection E as <-. reflexivity. }
  assert (H : 1 = 0); [|discriminate]. apply (X s) with (t := 1) (u := 0).
  - exists two_firsts. auto.
  - intros t f H. rewrite L in H. cbn in H. intuition discriminate.
  - rewrite L. cbn. auto.
  - rewrite L. cbn. auto.
Qed.

(** Refuted: after a replacement has completed, a get called later may still return an instance of the factory that was replaced, if another get was in progress
    meanwhile (even with a single replacement). *)
Definition undone := [AGet 0; AStep 0; AStep 0; AStep 0; AStep 0; ASet 1 7; AStep 1; AStep 1; AStep 1; AStep 1; AStep 1; AStep 0; AStep 0; AStep 0; AGet 2; AStep 2; AStep 2; AStep 2].
Theorem backend_replacement_undone_refuted :
  ~ (forall s, reachable s -> one_at_a_time (log s) ->
       forall l1 l2 t i, log s = l1 ++ EGet t i :: l2 -> undisturbed t l2 -> cur (EGet t i :: l2) = Some i).
Proof.
  intros X. destruct (runs undone init) as [s|] eqn:E; [|vm_compute in E; discriminate].
  assert (L : log s = [EGet 2 0; EGetCall 2; EGet 0 0; ESet 1 7 0 1; ESetCall 1 7; EGetCall 0]). { vm_compute in E. injection E as <-. reflexivity. }
  assert (R : reachable s) by (exists undone; auto).
  specialize (X s R). rewrite L in X.
  assert (Q1 : quiet [EGetCall 0]) by (intros t; reflexivity).
  assert (Q2 : quiet [EGet 0 0; ESet 1 7 0 1; ESetCall 1 7; EGetCall 0]). { intros t. cbn. destruct (t =? 1); auto. }
  specialize (X (conj Q1 I) [] _ 2 0 eq_refl Q2). cbn in X. discriminate.
Qed.

(** A run that meets the hypotheses of [backend_current_partial]: a first get, a replacement, and two more gets. *)
Definition orderly_run := [AGet 0; AStep 0; AStep 0; AStep 0; AStep 0; AStep 0; AStep 0; AStep 0; AGet 2; AStep 2; ASet 1 7; AStep 1; AStep 2; AStep 2; AStep 1; AStep 1; AStep 1; AStep 1; AGet 3; AStep 3; AStep 3; AStep 3].
Example orderly_run_log : option_map log (runs orderly_run init)
  = Some [EGet 3 1; EGetCall 3; ESet 1 7 0 1; EGet 2 0; ESetCall 1 7; EGetCall 2; EGet 0 0; EGetCall 0].
Proof. vm_compute. reflexivity. Qed.
Example orderly_run_ok : orderly [EGet 3 1; EGetCall 3; ESet 1 7 0 1; EGet 2 0; ESetCall 1 7; EGetCall 2; EGet 0 0; EGetCall 0]
  /\ undisturbed 3 [EGetCall 3; ESet 1 7 0 1; EGet 2 0; ESetCall 1 7; EGetCall 2; EGet 0 0; EGetCall 0].
Proof.
  split; [split|]; cbn.
  - split; auto. intros t. reflexivity.
  - repeat split; auto; right; discriminate.
  - intros t. cbn. destruct (t =? 1); auto.
Qed.

(** C55: the type-erased any holds, moves, copies and destroys values like a value. *)
From Coq Require Import List Bool Arith Lia.
From Verif Require Import Conc AnyModel.
Import ListNotations.
Set Implicit Arguments.

(** ** Specification *)
(** What the program may rely on: each name is unused, or an any that is empty or has a value. *)
Definition spec := nat -> option (option nat).
Definition sinit : spec := fun _ => None.
Definition sstep (m : spec) (a : op) (threw : bool) : spec :=
  match a with
  | ONew p _ => fset m p (Some None)
  | ONewValue p _ _ v _ | ONewFrom p _ _ v _ => if threw then m else fset m p (Some (Some v))
  | OMove p q => fset (fset m p (m q)) q (Some None)
  | OCopy p q _ => if threw then m else fset m p (m q)
  | OConv p q _ _ _ => fset (if threw then m else fset m p (m q)) q (Some None)
  | OAssign p q => if p =? q then m else fset (fset m p (m q)) q (Some None)
  | OCopyAssign p q _ => if threw then m else fset m p (m q)
  | OConvAssign p q _ _ => fset (fset m p (if threw then Some None else m q)) q (Some None)
  | OEmplace p _ v _ => fset m p (Some (if threw then None else Some v))
  | OSwap p q => fset (fset m p (m q)) q (m p)
  | OSet p v => fset m p (Some (Some v))
  | OReset p => fset m p (Some None)
  | ODestroy p => fset m p None
  end.
Fixpoint sruns (m : spec) (l : list op) (bs : list bool) : spec :=
  match l, bs with a :: l, b :: bs => sruns (sstep m a b) l bs | _, _ => m end.
(** where the exception of an operation comes from *)
Definition throws_at (a : op) : thr :=
  match a with ONewValue _ _ _ _ x | ONewFrom _ _ _ _ x | OCopy _ _ x | OConv _ _ _ _ x | OCopyAssign _ _ x
             | OConvAssign _ _ _ x | OEmplace _ _ _ x => x | _ => TNone end.
(** a function that constructs a value in the buffer throws *)
Definition fails_in_buffer (a : op) : bool := match a with ONewFrom _ i t _ TBody => is_small i t | _ => false end.

(** How often object o was constructed, destroyed, its memory allocated, released. *)
Definition isC o e := match e with ECtor x _ => x =? o | _ => false end.
Definition isD o e := match e with EDtor x => x =? o | _ => false end.
Definition isA o e := match e with EAlloc x => x =? o | _ => false end.
Definition isF o e := match e with EFree x => x =? o | _ => false end.
Definition times (f : event -> bool) (l : list event) : nat := length (filter f l).
(** In every history (newest first) an object is used and destroyed only while it is alive, memory is released only if it is
    allocated and no object lives in it, and no function is called on a buffer without object. *)
Fixpoint proper (l : list event) : Prop :=
  match l with
  | [] => True
  | e :: l => proper l /\ match e with
      | ECtor o _ => times (isC o) l = 0
      | EDtor o | EUse o => times (isC o) l = 1 /\ times (isD o) l = 0
      | EAlloc o => times (isA o) l = 0
      | EFree o => times (isA o) l = 1 /\ times (isF o) l = 0 /\ times (isC o) l = times (isD o) l
      | EBad => False
      | EMis _ => True
      end
  end.

(** ** Invariant *)
Definition holds (x : word) (o : nat) : Prop := x = WSitu o \/ x = WHeap o.
Definition counts (l : list event) o c d a f := times (isC o) l = c /\ times (isD o) l = d /\ times (isA o) l = a /\ times (isF o) l = f.
Record Inv (s : state) : Prop := {
  i1 : forall p, w s p <> WJunk;
  i2 : forall p, ifc s p = None -> w s p = WNull;
  i3 : forall p q o, holds (w s p) o -> holds (w s q) o -> p = q;
  i4 : forall p o, w s p = WSitu o -> exists i, ifc s p = Some i /\ is_small i (oty s o) = true;
  i5 : forall p o, holds (w s p) o -> o < next s;
  i6 : forall p o, w s p = WSitu o -> counts (log s) o 1 0 0 0;
  i7 : forall p o, w s p = WHeap o -> counts (log s) o 1 0 1 0;
  i8 : forall o, (forall p, ~ holds (w s p) o) -> times (isC o) (log s) = times (isD o) (log s) /\ times (isA o) (log s) = times (isF o) (log s) /\
        times (isC o) (log s) <= 1 /\ times (isA o) (log s) <= 1;
  i9 : forall o, next s <= o -> counts (log s) o 0 0 0 0;
  i10 : proper (log s)
}.
Lemma times_cons f e l : times f (e :: l) = (if f e then 1 else 0) + times f l.
Proof. unfold times. cbn. destruct (f e); reflexivity. Qed.
Ltac tc := rewrite ?times_cons in *; cbn [isC isD isA isF] in *.
Ltac eqs := repeat match goal with
  | |- context[?x =? ?y] => destruct (Nat.eqb_spec x y)
  | H : context[?x =? ?y] |- _ => destruct (Nat.eqb_spec x y) end; subst.
Lemma holds_inj x o o' : holds x o -> holds x o' -> o = o'.
Proof. intros [->| ->] [E|E]; congruence. Qed.
Lemma holds_null o : ~ holds WNull o. Proof. intros [H|H]; discriminate. Qed.
#[local] Hint Resolve holds_null : core.

(** Changing values, and using an object that is held. *)
Lemma inv_val s o v : Inv s -> Inv (set_val s o v).
Proof. intros [H1 H2 H3 H4 H5 H6 H7 H8 H9 H10]. constructor; auto. Qed.
Lemma counts_neutral e l o c d a f : counts l o c d a f -> isC o e = false -> isD o e = false -> isA o e = false -> isF o e = false -> counts (e :: l) o c d a f.
Proof. intros [A [B [C D]]] E1 E2 E3 E4. unfold counts. rewrite !times_cons, E1, E2, E3, E4. auto. Qed.
Lemma inv_neutral s e : Inv s -> (forall o, isC o e = false /\ isD o e = false /\ isA o e = false /\ isF o e = false) -> proper (e :: log s) -> Inv (emit s e).
Proof.
  intros [H1 H2 H3 H4 H5 H6 H7 H8 H9 H10] N P. constructor; cbn [ifc w next oty log emit]; auto.
  - intros p o H. destruct (N o) as [? [? [? ?]]]. apply counts_neutral; eauto.
  - intros p o H. destruct (N o) as [? [? [? ?]]]. apply counts_neutral; eauto.
  - intros o H. destruct (N o) as [E1 [E2 [E3 E4]]]. rewrite !times_cons, E1, E2, E3, E4. apply (H8 o H).
  - intros o H. destruct (N o) as [? [? [? ?]]]. apply counts_neutral; eauto.
Qed.
Lemma inv_use s p o : Inv s -> holds (w s p) o -> Inv (emit s (EUse o)).
Proof.
  intros I H. apply inv_neutral; auto. cbn. split; [apply I|]. destruct H as [H|H]; [destruct (i6 I p H) as [A [B _]]|destruct (i7 I p H) as [A [B _]]]; auto.
Qed.
Lemma inv_mis s o : Inv s -> Inv (emit s (EMis o)).
Proof. intros I. apply inv_neutral; auto. cbn. split; [apply I|exact Logic.I]. Qed.
Lemma inv_ifc s p x : Inv s -> w s p = WNull -> Inv (set_ifc s p x).
Proof.
  intros [H1 H2 H3 H4 H5 H6 H7 H8 H9 H10] N. constructor; cbn [ifc w next oty log set_ifc]; auto.
  - intros q. unfold fset. destruct (Nat.eqb_spec q p) as [->|]; auto.
  - intros q o H. unfold fset. destruct (Nat.eqb_spec q p) as [->|]; [congruence|auto].
Qed.
Lemma inv_alloc_id s : Inv s -> Inv (alloc_id s).
Proof. intros [H1 H2 H3 H4 H5 H6 H7 H8 H9 H10]. constructor; cbn [ifc w next oty log alloc_id]; auto; [intros p o H; apply H5 in H; lia|intros o H; apply H9; lia]. Qed.

Ltac fs := unfold fset in *; repeat match goal with
  | H : context[?x =? ?y] |- _ => destruct (Nat.eqb_spec x y); subst
  | |- context[?x =? ?y] => destruct (Nat.eqb_spec x y); subst end.
Lemma inv_same_w s p : Inv s -> w s p = WNull -> Inv (set_w s p WNull).
Proof.
  intros [H1 H2 H3 H4 H5 H6 H7 H8 H9 H10] N. assert (E : forall q, fset (w s) p WNull q = w s q) by (intros q; fs; auto).
  constructor; cbn [ifc w next oty log set_w]; auto; intros *; rewrite ?E; eauto.
  intros H. apply H8. intros q. rewrite <- E. apply H.
Qed.
(** __reset_ *)
Lemma inv_reset s p : Inv s -> Inv (reset s p).
Proof.
  intros I. unfold reset. destruct (w s p) as [|o|o|] eqn:W; auto.
  - destruct I as [H1 H2 H3 H4 H5 H6 H7 H8 H9 H10]. pose proof (H7 _ _ W) as [C1 [C2 [C3 C4]]].
    assert (U : forall q, holds (w s q) o -> q = p) by (intros q H; apply (H3 q p o H); right; exact W).
    constructor; cbn [ifc w next oty log set_w emit].
    + intros q. fs; [discriminate|auto].
    + intros q H. fs; auto.
    + intros q1 q2 o' A B. fs; auto; try (exfalso; eapply holds_null; eassumption). eauto.
    + intros q o' H. fs; [discriminate|eauto].
    + intros q o' H. fs; [exfalso; eapply holds_null; eassumption|eauto].
    + intros q o' H. fs; [discriminate|]. assert (o' <> o) by (intros ->; apply n; apply U; left; auto).
      apply counts_neutral; [apply counts_neutral; [eapply H6; eassumption|..]|..]; cbn; auto; apply Nat.eqb_neq; auto.
    + intros q o' H. fs; [discriminate|]. assert (o' <> o) by (intros ->; apply n; apply U; right; auto).
      apply counts_neutral; [apply counts_neutral; [eapply H7; eassumption|..]|..]; cbn; auto; apply Nat.eqb_neq; auto.
    + intros o' H. tc. destruct (Nat.eq_dec o' o) as [->|N].
      * rewrite Nat.eqb_refl. lia.
      * rewrite (proj2 (Nat.eqb_neq o o')) by congruence. cbn. apply H8. intros q B. apply (H q). fs; [|exact B]. rewrite W in B. destruct B; congruence.
    + intros o' H. assert (o < next s) by (apply (H5 p); right; exact W).
      apply counts_neutral; [apply counts_neutral; [apply H9; assumption|..]|..]; cbn; auto; apply Nat.eqb_neq; lia.
    + cbn [proper]. tc. rewrite Nat.eqb_refl. repeat split; auto; lia.
  - destruct I as [H1 H2 H3 H4 H5 H6 H7 H8 H9 H10]. pose proof (H6 _ _ W) as [C1 [C2 [C3 C4]]].
    assert (U : forall q, holds (w s q) o -> q = p) by (intros q H; apply (H3 q p o H); left; exact W).
    constructor; cbn [ifc w next oty log set_w emit].
    + intros q. fs; [discriminate|auto].
    + intros q H. fs; auto.
    + intros q1 q2 o' A B. fs; auto; try (exfalso; eapply holds_null; eassumption). eauto.
    + intros q o' H. fs; [discriminate|eauto].
    + intros q o' H. fs; [exfalso; eapply holds_null; eassumption|eauto].
    + intros q o' H. fs; [discriminate|]. assert (o' <> o) by (intros ->; apply n; apply U; left; auto).
      apply counts_neutral; [eapply H6; eassumption|..]; cbn; auto; apply Nat.eqb_neq; auto.
    + intros q o' H. fs; [discriminate|]. assert (o' <> o) by (intros ->; apply n; apply U; right; auto).
      apply counts_neutral; [eapply H7; eassumption|..]; cbn; auto; apply Nat.eqb_neq; auto.
    + intros o' H. tc. destruct (Nat.eq_dec o' o) as [->|N].
      * rewrite Nat.eqb_refl. lia.
      * rewrite (proj2 (Nat.eqb_neq o o')) by congruence. cbn. apply H8. intros q B. apply (H q). fs; [|exact B]. rewrite W in B. destruct B; congruence.
    + intros o' H. assert (o < next s) by (apply (H5 p); left; exact W).
      apply counts_neutral; [apply H9; assumption|..]; cbn; auto; apply Nat.eqb_neq; lia.
    + cbn. repeat split; auto.
  - exfalso. apply (i1 I p W).
Qed.
Lemma reset_w s p : Inv s -> w (reset s p) = w s /\ w s p = WNull \/ w (reset s p) = fset (w s) p WNull.
Proof. intros I. unfold reset. destruct (w s p) as [|o|o|] eqn:W; auto. Qed.
Lemma reset_w_eq s p q : w (reset s p) q = if q =? p then WNull else w s q.
Proof. unfold reset. destruct (w s p) as [|o|o|] eqn:W; cbn [w set_w emit]; fs; auto. Qed.
Lemma reset_ifc s p : ifc (reset s p) = ifc s. Proof. unfold reset. destruct (w s p); reflexivity. Qed.
Lemma reset_val s p : val (reset s p) = val s. Proof. unfold reset. destruct (w s p); reflexivity. Qed.
Lemma reset_oty s p : oty (reset s p) = oty s. Proof. unfold reset. destruct (w s p); reflexivity. Qed.
Lemma reset_next s p : next (reset s p) = next s. Proof. unfold reset. destruct (w s p); reflexivity. Qed.

(** memory allocated and released again *)
Lemma inv_fail s : Inv s -> Inv (emit (emit (alloc_id s) (EAlloc (next s))) (EFree (next s))).
Proof.
  intros [H1 H2 H3 H4 H5 H6 H7 H8 H9 H10]; constructor; cbn [ifc w next oty log emit alloc_id]; auto.
  - intros q o' H. apply H5 in H. lia.
  - intros q o' H; assert (o' < next s) by (apply (H5 q); left; exact H); apply counts_neutral; [apply counts_neutral; [eauto|..]|..]; cbn; auto; apply Nat.eqb_neq; lia.
  - intros q o' H; assert (o' < next s) by (apply (H5 q); right; exact H); apply counts_neutral; [apply counts_neutral; [eauto|..]|..]; cbn; auto; apply Nat.eqb_neq; lia.
  - intros o' H. tc. destruct (Nat.eqb_spec (next s) o') as [<-|N]; cbn; [|auto]. destruct (H9 (next s) (le_n _)) as [C1 [C2 [C3 C4]]]. lia.
  - intros o' H; apply counts_neutral; [apply counts_neutral; [apply H9; lia|..]|..]; cbn; auto; apply Nat.eqb_neq; lia.
  - cbn [proper]. destruct (H9 (next s) (le_n _)) as [C1 [C2 [C3 C4]]]. tc. rewrite Nat.eqb_refl. repeat split; auto; lia.
Qed.
Lemma inv_situ s p i t v : Inv s -> w s p = WNull -> ifc s p = Some i -> is_small i t = true -> Inv (construct (set_w (alloc_id s) p (WSitu (next s))) (next s) t v).
Proof.
  intros [H1 H2 H3 H4 H5 H6 H7 H8 H9 H10] W F SM; constructor; cbn [ifc w next oty log set_w emit construct alloc_id].
  - intros q; fs; [discriminate|auto].
  - intros q H; fs; [congruence|auto].
  - assert (FR : forall q, holds (w s q) (next s) -> False) by (intros q X; apply H5 in X; lia).
    intros q1 q2 o' A B; fs; auto; try (exfalso; destruct A as [A|A]; destruct B as [B|B]; try discriminate; try (injection A as <-); try (injection B as <-); eapply FR; (left; eassumption) || (right; eassumption)). eauto.
  - intros q o' H. unfold fset in H. destruct (Nat.eqb_spec q p) as [->|N].
    + injection H as <-. rewrite fset_same. eauto.
    + rewrite fset_other; [eauto|]. assert (o' < next s) by (apply (H5 q); left; exact H). lia.
  - intros q o' H; fs; [destruct H as [H|H]; [injection H as <-; lia|discriminate]|apply H5 in H; lia].
  - intros q o' H; fs; [injection H as <-|].
    + destruct (H9 (next s) (le_n _)) as [C1 [C2 [C3 C4]]]; unfold counts; tc; rewrite Nat.eqb_refl, C1, C2, C3, C4; auto.
    + assert (o' < next s) by (apply (H5 q); left; exact H); apply counts_neutral; [eauto|..]; cbn; auto; apply Nat.eqb_neq; lia.
  - intros q o' H; fs; [discriminate|]; assert (o' < next s) by (apply (H5 q); right; exact H); apply counts_neutral; [eauto|..]; cbn; auto; apply Nat.eqb_neq; lia.
  - intros o' H; tc; destruct (Nat.eqb_spec (next s) o') as [<-|N]; [exfalso; apply (H p); rewrite fset_same; left; reflexivity|]; cbn; apply H8; intros q B; apply (H q); fs; [rewrite W in B; destruct (holds_null B)|exact B].
  - intros o' H; apply counts_neutral; [apply H9; lia|..]; cbn; auto; apply Nat.eqb_neq; lia.
  - cbn [proper]; split; auto; apply (H9 (next s) (le_n _)).
Qed.
(** __emplace_into *)
Lemma inv_emplace s p i t v x : Inv s -> w s p = WNull -> ifc s p = Some i -> (x = TBody -> is_small i t = false) -> Inv (fst (emplace_into s p i t v x)).
Proof.
  intros I W F NB. unfold emplace_into. destruct (is_small i t) eqn:SM.
  - destruct x; cbn [fst]; [| |apply inv_alloc_id; exact I|specialize (NB eq_refl); discriminate].
    1,2: pose proof (@inv_situ s p i t v I W F SM) as G.
    1,2: destruct (balign i mod align t =? 0); [exact G|apply inv_mis; exact G].
  - destruct x; cbn [fst].
    + destruct I as [H1 H2 H3 H4 H5 H6 H7 H8 H9 H10]; constructor; cbn [ifc w next oty log set_w emit construct alloc_id].
      * intros q; fs; [discriminate|auto].
      * intros q H; fs; [congruence|auto].
      * assert (FR : forall q, holds (w s q) (next s) -> False) by (intros q X; apply H5 in X; lia).
        intros q1 q2 o' A B; fs; auto; try (exfalso; destruct A as [A|A]; destruct B as [B|B]; try discriminate; try (injection A as <-); try (injection B as <-); eapply FR; (left; eassumption) || (right; eassumption)). eauto.
      * intros q o' H. unfold fset in H. destruct (Nat.eqb_spec q p) as [->|N]; [discriminate|].
        rewrite fset_other; [eauto|]. assert (o' < next s) by (apply (H5 q); left; exact H). lia.
      * intros q o' H; fs; [destruct H as [H|H]; [discriminate|injection H as <-; lia]|apply H5 in H; lia].
      * intros q o' H; fs; [discriminate|]; assert (o' < next s) by (apply (H5 q); left; exact H); apply counts_neutral; [apply counts_neutral; [eauto|..]|..]; cbn; auto; apply Nat.eqb_neq; lia.
      * intros q o' H; fs; [injection H as <-|];
        [destruct (H9 (next s) (le_n _)) as [C1 [C2 [C3 C4]]]; unfold counts; tc; rewrite Nat.eqb_refl, C1, C2, C3, C4; auto|
         assert (o' < next s) by (apply (H5 q); right; exact H); apply counts_neutral; [apply counts_neutral; [eauto|..]|..]; cbn; auto; apply Nat.eqb_neq; lia].
      * intros o' H; tc; destruct (Nat.eqb_spec (next s) o') as [<-|N]; [exfalso; apply (H p); rewrite fset_same; right; reflexivity|]; cbn; apply H8; intros q B; apply (H q); fs; [rewrite W in B; destruct (holds_null B)|exact B].
      * intros o' H; apply counts_neutral; [apply counts_neutral; [apply H9; lia|..]|..]; cbn; auto; apply Nat.eqb_neq; lia.
      * cbn [proper]. destruct (H9 (next s) (le_n _)) as [C1 [C2 [C3 C4]]]. tc. repeat split; auto.
    + apply inv_alloc_id; exact I.
    + apply inv_fail; exact I.
    + apply inv_fail; exact I.
Qed.

(** moving pointers between buffers *)
Lemma inv_relabel s f : Inv s -> (forall r, f (f r) = r) -> (forall r o, w s (f r) = WSitu o -> f r = r) -> (forall r, ifc s r = None -> w s (f r) = WNull) ->
  forall w', (forall r, w' r = w s (f r)) -> Inv (mks (ifc s) w' (next s) (val s) (oty s) (log s)).
Proof.
  intros [H1 H2 H3 H4 H5 H6 H7 H8 H9 H10] FF FS FN w' E. constructor; cbn [ifc w next oty log]; auto; intros *; rewrite ?E; eauto.
  - intros A B. specialize (H3 _ _ _ A B). rewrite <- (FF p), <- (FF q), H3. reflexivity.
  - intros H. pose proof (FS _ _ H) as X. rewrite X in H. eauto.
  - intros H. apply H8. intros q B. apply (H (f q)). rewrite E, FF. exact B.
Qed.

(** ** The contents of every any *)
Definition Good s := Inv s /\ forall r o, holds (w s r) o -> val s o <> None.
Lemma contents_null s r : Good s -> (contents s r = None <-> w s r = WNull).
Proof.
  intros [I V]. unfold contents. destruct (w s r) as [|o|o|] eqn:W; split; intros H; try discriminate; auto.
  - exfalso. apply (V r o); [right; exact W|exact H].
  - exfalso. apply (V r o); [left; exact W|exact H].
  - exfalso. apply (i1 I r W).
Qed.
Lemma reset_ok s p : Good s -> Good (reset s p) /\ ifc (reset s p) = ifc s /\ (forall r, contents (reset s p) r = fset (contents s) p None r).
Proof.
  intros [I V]. split; [split; [apply inv_reset; exact I|]|split; [apply reset_ifc|]].
  - intros r o. rewrite reset_w_eq, reset_val. destruct (r =? p); [intros H; destruct (holds_null H)|apply V].
  - intros r. unfold contents, fset. rewrite reset_w_eq, reset_val. destruct (r =? p); reflexivity.
Qed.
Lemma emplace_facts s p i t v x s' b : emplace_into s p i t v x = (s', b) -> (x = TBody -> is_small i t = false) ->
  ifc s' = ifc s /\ (forall r, r <> p -> w s' r = w s r) /\ (forall o, o <> next s -> val s' o = val s o /\ oty s' o = oty s o) /\ 
  (if b then x <> TNone /\ w s' p = w s p /\ val s' = val s else holds (w s' p) (next s) /\ val s' (next s) = Some v).
Proof.
  intros E NB. unfold emplace_into in E. destruct (is_small i t) eqn:SM; destruct x; try (specialize (NB eq_refl); discriminate); injection E as <- <-.
  all: repeat match goal with |- context[if ?c then _ else _] => match c with _ =? _ => destruct c eqn:? end end.
  all: cbn [ifc w val oty set_w set_val construct emit alloc_id]; repeat split; try discriminate; intros; rewrite ?fset_same, ?fset_other by auto; try reflexivity; try (left; reflexivity); try (right; reflexivity).
Qed.
Lemma emplace_ok s p i t v x s' b : Good s -> contents s p = None -> ifc s p = Some i -> emplace_into s p i t v x = (s', b) -> (x = TBody -> is_small i t = false) ->
  Good s' /\ ifc s' = ifc s /\ (b = true -> x <> TNone) /\ forall r, contents s' r = if b then contents s r else fset (contents s) p (Some v) r.
Proof.
  intros G C F E NB. apply (contents_null p G) in C. destruct G as [I V]. destruct (@emplace_facts _ _ _ _ _ _ _ _ E NB) as [F1 [F2 [F3 F4]]].
  assert (I' : Inv s') by (replace s' with (fst (emplace_into s p i t v x)) by (rewrite E; reflexivity); apply inv_emplace; auto).
  assert (FR : forall r o, holds (w s r) o -> o <> next s) by (intros r o H; apply (i5 I) in H; lia).
  split; [split; [exact I'|]|split; [exact F1|split; [destruct b; [intros _; apply F4|discriminate]|]]].
  - intros r o H. destruct (Nat.eq_dec r p) as [->|N].
    + destruct b; [destruct F4 as [_ [F4 _]]; rewrite F4, C in H; destruct (holds_null H)|]. destruct F4 as [F4 F5]. rewrite (holds_inj H F4), F5. discriminate.
    + rewrite F2 in H by exact N. rewrite (proj1 (F3 o (FR _ _ H))). apply (V r o H).
  - intros r. unfold contents, fset. destruct (Nat.eqb_spec r p) as [->|N].
    + destruct b; [destruct F4 as [_ [F4 _]]; rewrite F4, C; reflexivity|]. destruct F4 as [[F4|F4] F5]; rewrite F4, F5; reflexivity.
    + rewrite F2 by exact N. destruct (w s r) as [|o|o|] eqn:W; destruct b; auto; apply F3; apply (FR r); rewrite W; [right|right|left|left]; reflexivity.
Qed.
Lemma mte_ok s p q i : Good s -> p <> q -> contents s p <> None -> contents s q = None -> ifc s p = Some i -> ifc s q = Some i ->
  Good (move_to_empty s p q i) /\ ifc (move_to_empty s p q i) = ifc s /\ forall r, contents (move_to_empty s p q i) r = fset (fset (contents s) q (contents s p)) p None r.
Proof.
  intros G N C D F F'. pose proof D as D'. apply (contents_null q G) in D'. pose proof G as [I V]. unfold move_to_empty.
  destruct (w s p) as [|o|o|] eqn:W.
  - exfalso. apply C. apply (contents_null p G). exact W.
  - split; [split|split; [reflexivity|]].
    + apply (@inv_relabel s (fun r => if r =? q then p else if r =? p then q else r) I).
      * intros r. fs; auto; congruence.
      * intros r o'. fs; auto; congruence.
      * intros r E. fs; auto; try congruence. apply (i2 I); exact E.
      * intros r. cbn. fs; try congruence; auto.
    + intros r o'. cbn [w set_w val]. fs; intros H; [destruct (holds_null H)| |apply (V _ _ H)].
      destruct H as [H|H]; [discriminate|injection H as <-]. apply (V p). right; exact W.
    + intros r. unfold contents. cbn [w set_w val]. fs; auto; try congruence. rewrite W. reflexivity.
  - cbn [take]. set (s1 := set_val (emit s (EUse o)) o None). set (v := match val s o with Some v => v | None => 0 end).
    assert (Ho : holds (w s p) o) by (left; exact W).
    assert (Vo : val s o = Some v) by (unfold v; destruct (val s o) eqn:X; [reflexivity|exfalso; apply (V p o Ho X)]).
    assert (I1 : Inv s1) by (apply inv_val; eapply inv_use; eassumption).
    destruct (emplace_into s1 q i (oty s1 o) v TNone) as [s2 b] eqn:E.
    assert (NB : TNone = TBody -> is_small i (oty s1 o) = false) by discriminate.
    destruct (@emplace_facts _ _ _ _ _ _ _ _ E NB) as [F1 [F2 [F3 F4]]].
    assert (I2 : Inv s2) by (replace s2 with (fst (emplace_into s1 q i (oty s1 o) v TNone)) by (rewrite E; reflexivity); apply inv_emplace; auto).
    destruct b; [destruct F4 as [X _]; congruence|]. cbn [fst]. destruct F4 as [F4 F5].
    assert (FR : forall r o, holds (w s r) o -> o <> next s) by (intros r o' H; apply (i5 I) in H; lia).
    assert (K : forall r, r <> p -> r <> q -> forall o', holds (w s r) o' -> val s2 o' = val s o').
    { intros r R1 R2 o' H. rewrite (proj1 (F3 o' (FR _ _ H))). cbn [val s1 set_val emit]. rewrite fset_other; auto. intros ->. apply R1. apply (i3 I r p H Ho). }
    change (next s1) with (next s) in *. split; [split; [apply inv_reset; exact I2|]|split; [rewrite reset_ifc, F1; reflexivity|]].
    + intros r o'. rewrite reset_w_eq, reset_val. fs; [intros H; destruct (holds_null H)|]. intros H. destruct (Nat.eq_dec r q) as [->|N1].
      * rewrite (holds_inj H F4), F5. discriminate.
      * rewrite F2 in H by exact N1. change (w s1 r) with (w s r) in H. rewrite (K r n N1 o' H). apply (V r o' H).
    + intros r. unfold contents. rewrite reset_w_eq, reset_val. unfold fset. destruct (Nat.eqb_spec r p) as [->|N1]; [reflexivity|].
      destruct (Nat.eqb_spec r q) as [->|N2].
      * rewrite W, Vo. destruct F4 as [F4|F4]; rewrite F4, F5; reflexivity.
      * rewrite F2 by exact N2. change (w s1 r) with (w s r). destruct (w s r) as [|o'|o'|] eqn:W'; auto; apply (K r N1 N2); rewrite W'; [right|left]; reflexivity.
  - exfalso. apply (i1 I p W).
Qed.
Lemma swap_words_ok s p q : Good s -> p <> q -> tagged (w s p) = true -> tagged (w s q) = true -> ifc s p <> None -> ifc s q <> None ->
  Good (swap_words s p q) /\ ifc (swap_words s p q) = ifc s /\ forall r, contents (swap_words s p q) r = fset (fset (contents s) p (contents s q)) q (contents s p) r.
Proof.
  intros [I V] N T1 T2 F1 F2. split; [split|split; [reflexivity|]].
  - apply (@inv_relabel s (fun r => if r =? q then p else if r =? p then q else r) I).
    + intros r. fs; auto; congruence.
    + intros r o'. fs; auto; intros X; [rewrite X in T1|rewrite X in T2]; discriminate.
    + intros r E. fs; auto; try congruence. apply (i2 I); exact E.
    + intros r. cbn. fs; try congruence; auto.
  - intros r o'. cbn [w set_w swap_words val]. fs; intros H; eapply V; eassumption.
  - intros r. unfold contents. cbn [w set_w swap_words val]. fs; auto; congruence.
Qed.
Lemma tagged_dec s r : Good s -> tagged (w s r) = false -> contents s r <> None.
Proof. intros G T C. apply (contents_null r G) in C. rewrite C in T. discriminate. Qed.
Lemma null_iff s r : Good s -> null (w s r) = true <-> contents s r = None.
Proof. intros G. rewrite (contents_null r G). destruct (w s r); cbn; split; intros; try discriminate; auto. Qed.
Lemma null_false s r : Good s -> null (w s r) = false -> contents s r <> None.
Proof. intros G H C. apply (null_iff r G) in C. congruence. Qed.
(** swap of contents *)
Definition swapped (c : nat -> option nat) p q := fset (fset c p (c q)) q (c p).
Lemma swap1_ok s p q i : Good s -> p <> q -> contents s p = None \/ contents s q = None -> ifc s p = Some i -> ifc s q = Some i ->
  Good (swap1 s p q i) /\ ifc (swap1 s p q i) = ifc s /\ forall r, contents (swap1 s p q i) r = swapped (contents s) p q r.
Proof.
  intros G N D F1 F2. unfold swap1, swapped. destruct (tagged (w s p) && tagged (w s q)) eqn:T.
  - apply andb_prop in T. apply swap_words_ok; try tauto; congruence.
  - destruct (null (w s p)) eqn:U.
    + pose proof (proj1 (null_iff p G) U) as C. assert (NQ : contents s q <> None).
      { apply (tagged_dec q G). destruct (w s p); try discriminate. exact T. }
      destruct (@mte_ok s q p i G (not_eq_sym N) NQ C F2 F1) as [A [B E]]. split; [exact A|split; [exact B|]].
      intros r. rewrite E. unfold fset. destruct (Nat.eqb_spec r q); auto.
    + pose proof (null_false p G U) as C. destruct D as [D|D]; [congruence|].
      destruct (@mte_ok s p q i G N C D F1 F2) as [A [B E]]. split; [exact A|split; [exact B|]].
      intros r. rewrite E. unfold fset. rewrite D. destruct (Nat.eqb_spec r p), (Nat.eqb_spec r q); subst; auto; congruence.
Qed.
Lemma new_ok s p i : Good s -> ifc s p = None -> Good (set_ifc (set_w s p WNull) p (Some i)) /\ forall r, contents (set_ifc (set_w s p WNull) p (Some i)) r = contents s r.
Proof.
  intros G F. pose proof G as [I V]. pose proof (i2 I p F) as W. assert (E : forall r, fset (w s) p WNull r = w s r) by (intros r; fs; auto).
  split; [split|].
  - apply inv_ifc; [apply inv_same_w; auto|]. cbn. apply fset_same.
  - intros r o. cbn [w set_ifc set_w val]. rewrite E. apply V.
  - intros r. unfold contents. cbn [w set_ifc set_w val]. rewrite E. reflexivity.
Qed.
Lemma contents_none s p : Good s -> ifc s p = None -> contents s p = None.
Proof. intros G F. apply (contents_null p G). apply (i2 (proj1 G)); exact F. Qed.
Lemma move_ctor_ok s p q i : Good s -> p <> q -> ifc s p = None -> ifc s q = Some i ->
  Good (move_ctor s p q i) /\ ifc (move_ctor s p q i) = fset (ifc s) p (Some i) /\ forall r, contents (move_ctor s p q i) r = fset (fset (contents s) p (contents s q)) q None r.
Proof.
  intros G N F1 F2. unfold move_ctor. destruct (new_ok p i G F1) as [G1 C1]. set (s1 := set_ifc (set_w s p WNull) p (Some i)) in *.
  assert (A1 : ifc s1 p = Some i) by (cbn; apply fset_same). assert (A2 : ifc s1 q = Some i) by (cbn; rewrite fset_other; auto).
  assert (A3 : contents s1 p = None) by (rewrite C1; apply contents_none; auto).
  destruct (@swap1_ok s1 p q i G1 N (or_introl A3) A1 A2) as [B1 [B2 B3]]. split; [exact B1|split; [rewrite B2; reflexivity|]].
  intros r. rewrite B3. unfold swapped, fset. rewrite !C1, (contents_none p G F1). destruct (r =? q), (r =? p); auto.
Qed.
Lemma dtor_ok s p : Good s -> Good (dtor s p) /\ ifc (dtor s p) = fset (ifc s) p None /\ forall r, contents (dtor s p) r = fset (contents s) p None r.
Proof.
  intros G. destruct (reset_ok p G) as [G1 [F C]]. unfold dtor. split; [split|split].
  - apply inv_ifc; [apply G1|]. apply (contents_null p G1). rewrite C. apply fset_same.
  - exact (proj2 G1).
  - cbn. rewrite F. reflexivity.
  - intros r. rewrite <- C. reflexivity.
Qed.
Ltac ff := unfold fset in *; repeat match goal with |- context[?x =? ?y] => destruct (Nat.eqb_spec x y); subst; try congruence; auto end; try congruence; auto.
Lemma swap_ok s p q i : Good s -> p <> 0 -> q <> 0 -> ifc s 0 = None -> ifc s p = Some i -> ifc s q = Some i ->
  Good (swap s p q i) /\ (forall r, ifc (swap s p q i) r = ifc s r) /\ forall r, contents (swap s p q i) r = swapped (contents s) p q r.
Proof.
  intros G P Q Z F1 F2. unfold swap. destruct (Nat.eqb_spec p q) as [<-|N].
  { split; [exact G|split; [reflexivity|]]. intros r. unfold swapped. ff. }
  destruct (tagged (w s p) && tagged (w s q)) eqn:T.
  { apply andb_prop in T. destruct (@swap_words_ok s p q G N (proj1 T) (proj2 T)) as [A [B C]]; try congruence. split; [exact A|split; [intros r; rewrite B; reflexivity|exact C]]. }
  destruct (null (w s p)) eqn:U; [|destruct (null (w s q)) eqn:U'].
  - pose proof (swap1_ok G N (or_introl (proj1 (null_iff p G) U)) F1 F2) as X. unfold swap1 in X. rewrite T, U in X. destruct X as [A [B C]].
    split; [exact A|split; [intros r; rewrite B; reflexivity|exact C]].
  - pose proof (swap1_ok G N (or_intror (proj1 (null_iff q G) U')) F1 F2) as X. unfold swap1 in X. rewrite T, U in X. destruct X as [A [B C]].
    split; [exact A|split; [intros r; rewrite B; reflexivity|exact C]].
  - apply (null_false p G) in U. apply (null_false q G) in U'.
    destruct (@move_ctor_ok s 0 p i G (not_eq_sym P) Z F1) as [A1 [A2 A3]]. set (s1 := move_ctor s 0 p i) in *.
    destruct (@mte_ok s1 q p i A1 (not_eq_sym N)) as [B1 [B2 B3]]; rewrite ?A2, ?A3; try (ff; fail).
    set (s2 := move_to_empty s1 q p i) in *.
    destruct (@mte_ok s2 0 q i B1 (not_eq_sym Q)) as [C1 [C2 C3]]; rewrite ?B2, ?B3, ?A2, ?A3; try (ff; fail).
    { rewrite !fset_other by auto. rewrite A3, fset_other, fset_same by auto. exact U. }
    set (s3 := move_to_empty s2 0 q i) in *.
    destruct (dtor_ok 0 C1) as [D1 [D2 D3]]. split; [exact D1|split].
    + intros r. rewrite D2, C2, B2, A2. ff.
    + intros r. rewrite D3. unfold fset at 1. destruct (Nat.eqb_spec r 0) as [->|R].
      { unfold swapped. ff. symmetry. apply contents_none; auto. }
      rewrite C3. unfold swapped. unfold fset at 1 2. destruct (Nat.eqb_spec r 0); [congruence|]. unfold fset at 1 2. destruct (Nat.eqb_spec r q) as [->|R1].
      * rewrite B3, !fset_other by auto. rewrite A3, fset_other, fset_same by auto. reflexivity.
      * rewrite B3. destruct (Nat.eqb_spec r p) as [->|R2].
        -- rewrite fset_other by auto. rewrite fset_same, A3, !fset_other by auto. reflexivity.
        -- rewrite !fset_other by auto. rewrite A3, !fset_other by auto. reflexivity.
Qed.
Lemma copy_ctor_ok s p q i x s' b : Good s -> p <> q -> ifc s p = None -> nobody x = true -> copy_ctor s p q i x = (s', b) ->
  Good s' /\ (b = true -> x <> TNone) /\ (forall r, ifc s' r = if b then ifc s r else fset (ifc s) p (Some i) r) /\
  forall r, contents s' r = if b then contents s r else fset (contents s) p (contents s q) r.
Proof.
  intros G N F X E. unfold copy_ctor in E. destruct (new_ok p i G F) as [G1 C1]. set (s1 := set_ifc (set_w s p WNull) p (Some i)) in *.
  assert (W1 : w s1 q = w s q) by (cbn; apply fset_other; auto). rewrite W1 in E.
  assert (A3 : contents s p = None) by (apply contents_none; auto).
  assert (H : forall o, holds (w s q) o -> forall s2 b2, emplace_into (emit s1 (EUse o)) p i (oty s1 o) (match val s1 o with Some v => v | None => 0 end) x = (s2, b2) ->
    (if b2 then (dtor s2 p, true) else (s2, false)) = (s', b) -> 
    Good s' /\ (b = true -> x <> TNone) /\ (forall r, ifc s' r = if b then ifc s r else fset (ifc s) p (Some i) r) /\ forall r, contents s' r = if b then contents s r else fset (contents s) p (contents s q) r).
  { intros o H s2 b2 E2 E3. assert (G2 : Good (emit s1 (EUse o))).
    { split; [apply (@inv_use s1 q o); [apply G1|rewrite W1; exact H]|apply G1]. }
    destruct (val s1 o) as [v|] eqn:V; [|exfalso; apply (proj2 G1 q o); [rewrite W1; exact H|exact V]].
    assert (X1 : contents (emit s1 (EUse o)) p = None) by (change (contents s1 p = None); rewrite C1; exact A3).
    assert (X2 : ifc (emit s1 (EUse o)) p = Some i) by (cbn; apply fset_same).
    assert (X3 : x = TBody -> is_small i (oty s1 o) = false) by (intros ->; discriminate).
    destruct (@emplace_ok _ _ _ _ _ _ _ _ G2 X1 X2 E2 X3) as [B1 [B2 [B3 B4]]].
    assert (CQ : contents s q = Some v) by (unfold contents; change (val s) with (val s1); destruct H as [-> | ->]; exact V).
    destruct b2; injection E3 as <- <-.
    - destruct (dtor_ok p B1) as [D1 [D2 D3]]. split; [exact D1|split; [exact B3|split]].
      + intros r. rewrite D2, B2. cbn. ff.
      + intros r. rewrite D3. unfold fset. rewrite B4. change (contents (emit s1 (EUse o)) r) with (contents s1 r). rewrite C1. ff.
    - split; [exact B1|split; [exact B3|split]].
      + intros r. rewrite B2. reflexivity.
      + intros r. rewrite B4. unfold fset. change (contents (emit s1 (EUse o)) r) with (contents s1 r). rewrite C1, CQ. reflexivity. }
  destruct (w s q) as [|o|o|] eqn:W.
  - injection E as <- <-. split; [exact G1|split; [discriminate|split; [reflexivity|]]]. intros r. rewrite C1. unfold fset. destruct (Nat.eqb_spec r p) as [->|]; auto.
    rewrite A3. symmetry. apply (contents_null q G). exact W.
  - destruct (emplace_into _ _ _ _ _ _) as [s2 b2] eqn:E2. eapply H; [right; reflexivity|exact E2|exact E].
  - destruct (emplace_into _ _ _ _ _ _) as [s2 b2] eqn:E2. eapply H; [left; reflexivity|exact E2|exact E].
  - exfalso. apply (i1 (proj1 G) q W).
Qed.
(** Good, except that the object in q may have been moved from *)
Definition GoodX q s := Inv s /\ forall r o, r <> q -> holds (w s r) o -> val s o <> None.
Lemma good_x q s : Good s -> GoodX q s. Proof. intros [I V]. split; auto. intros r o _. apply V. Qed.
Lemma resetx_same q s : GoodX q s -> Good (reset s q) /\ ifc (reset s q) = ifc s /\ forall r, contents (reset s q) r = fset (contents s) q None r.
Proof.
  intros [I V]. split; [split; [apply inv_reset; exact I|]|split; [apply reset_ifc|]].
  - intros r o. rewrite reset_w_eq, reset_val. destruct (Nat.eqb_spec r q); [intros H; destruct (holds_null H)|apply V; auto].
  - intros r. unfold contents, fset. rewrite reset_w_eq, reset_val. destruct (r =? q); reflexivity.
Qed.
Lemma resetx q s p : GoodX q s -> GoodX q (reset s p) /\ ifc (reset s p) = ifc s /\ forall r, contents (reset s p) r = fset (contents s) p None r.
Proof.
  intros [I V]. split; [split; [apply inv_reset; exact I|]|split; [apply reset_ifc|]].
  - intros r o N. rewrite reset_w_eq, reset_val. destruct (Nat.eqb_spec r p); [intros H; destruct (holds_null H)|apply V; auto].
  - intros r. unfold contents, fset. rewrite reset_w_eq, reset_val. destruct (r =? p); reflexivity.
Qed.
Lemma dtorx_same q s : GoodX q s -> Good (dtor s q) /\ ifc (dtor s q) = fset (ifc s) q None /\ forall r, contents (dtor s q) r = fset (contents s) q None r.
Proof.
  intros G. destruct (resetx_same G) as [G1 [F C]]. unfold dtor. split; [split|split].
  - apply inv_ifc; [apply G1|]. apply (contents_null q G1). rewrite C. apply fset_same.
  - exact (proj2 G1).
  - cbn. rewrite F. reflexivity.
  - intros r. rewrite <- C. reflexivity.
Qed.
Lemma dtorx q s p : GoodX q s -> GoodX q (dtor s p) /\ ifc (dtor s p) = fset (ifc s) p None /\ forall r, contents (dtor s p) r = fset (contents s) p None r.
Proof.
  intros G. destruct (resetx p G) as [G1 [F C]]. unfold dtor. split; [split|split].
  - apply inv_ifc; [apply G1|]. rewrite reset_w_eq, Nat.eqb_refl. reflexivity.
  - exact (proj2 G1).
  - cbn. rewrite F. reflexivity.
  - intros r. rewrite <- C. reflexivity.
Qed.
Lemma slice_ok s q p i x s' b : Good s -> p <> q -> contents s q <> None -> ifc s p = Some i -> nobody x = true -> slice s q p i x = (s', b) ->
  GoodX q s' /\ ifc s' = ifc s /\ (b = true -> x <> TNone) /\ forall r, r <> q -> contents s' r = fset (contents s) p (if b then None else contents s q) r.
Proof.
  intros G N C F X E. unfold slice in E.
  assert (H : forall o, holds (w s q) o -> (let s := reset s p in let '(s, v) := take s o in let '(s, b) := emplace_into s p i (oty s o) v x in if b then (s, true) else (reset s q, false)) = (s', b) ->
    GoodX q s' /\ ifc s' = ifc s /\ (b = true -> x <> TNone) /\ forall r, r <> q -> contents s' r = fset (contents s) p (if b then None else contents s q) r).
  { clear E. intros o H E. destruct (reset_ok p G) as [G1 [F1 C1]]. set (s1 := reset s p) in *. cbn [take] in E.
    set (s2 := set_val (emit s1 (EUse o)) o None) in *. set (v := match val s1 o with Some v => v | None => 0 end) in *.
    assert (W1 : w s1 q = w s q) by (unfold s1; rewrite reset_w_eq; destruct (Nat.eqb_spec q p); congruence).
    assert (Vo : val s1 o = Some v) by (unfold v; destruct (val s1 o) eqn:Y; [reflexivity|exfalso; apply (proj2 G1 q o); [rewrite W1; exact H|exact Y]]).
    assert (CQ : contents s q = Some v).
    { assert (E1 : contents s1 q = contents s q) by (rewrite C1; apply fset_other; auto). rewrite <- E1. unfold contents. rewrite W1. destruct H as [-> | ->]; exact Vo. }
    assert (I2 : Inv s2) by (apply inv_val; apply (@inv_use s1 q o); [apply G1|rewrite W1; exact H]).
    assert (WP : w s2 p = WNull) by (unfold s2, s1; cbn; rewrite reset_w_eq, Nat.eqb_refl; reflexivity).
    destruct (emplace_into s2 p i (oty s2 o) v x) as [s3 b3] eqn:E3.
    assert (NB : x = TBody -> is_small i (oty s2 o) = false) by (intros ->; discriminate).
    destruct (@emplace_facts _ _ _ _ _ _ _ _ E3 NB) as [F3 [F4 [F5 F6]]].
    assert (F' : ifc s2 p = Some i) by (unfold s2; cbn; rewrite F1; exact F).
    assert (I3 : Inv s3) by (replace s3 with (fst (emplace_into s2 p i (oty s2 o) v x)) by (rewrite E3; reflexivity); apply inv_emplace; auto).
    assert (FR : forall r o, holds (w s1 r) o -> o <> next s2) by (intros r o' H'; apply (i5 (proj1 G1)) in H'; change (next s2) with (next s1); lia).
    assert (K : forall r, r <> p -> r <> q -> forall o', holds (w s1 r) o' -> val s3 o' = val s1 o').
    { intros r R1 R2 o' H'. rewrite (proj1 (F5 o' (FR _ _ H'))). unfold s2. cbn [val set_val emit]. rewrite fset_other; auto. intros ->. apply R2. apply (i3 (proj1 G1) r q H'). rewrite W1. exact H. }
    assert (G3 : GoodX q s3).
    { split; [exact I3|]. intros r o' R H'. destruct (Nat.eq_dec r p) as [->|R1].
      - destruct b3; [destruct F6 as [_ [F6 _]]; rewrite F6, WP in H'; destruct (holds_null H')|]. destruct F6 as [F6 F7]. rewrite (holds_inj H' F6), F7. discriminate.
      - rewrite F4 in H' by exact R1. change (w s2 r) with (w s1 r) in H'. rewrite (K r R1 R o' H'). apply (proj2 G1 r o' H'). }
    assert (C3 : forall r, r <> q -> contents s3 r = fset (contents s) p (if b3 then None else contents s q) r).
    { intros r R. unfold fset. destruct (Nat.eqb_spec r p) as [->|R1].
      - unfold contents at 1. destruct b3; [destruct F6 as [_ [F6 _]]; rewrite F6, WP; reflexivity|]. rewrite CQ. destruct F6 as [[F6|F6] F7]; rewrite F6, F7; reflexivity.
      - transitivity (contents s1 r); [|rewrite C1; apply fset_other; auto].
        unfold contents. rewrite F4 by exact R1. change (w s2 r) with (w s1 r). destruct (w s1 r) as [|o'|o'|] eqn:W'; auto; apply (K r R1 R); rewrite W'; [right|left]; reflexivity. }
    assert (FI : ifc s3 = ifc s) by (rewrite F3; exact F1).
    destruct b3; injection E as <- <-.
    - split; [exact G3|split; [exact FI|split; [intros _; apply F6|exact C3]]].
    - destruct (resetx_same G3) as [G4 [F8 C4]]. split; [apply good_x; exact G4|split; [rewrite F8; exact FI|split; [discriminate|]]].
      intros r R. rewrite C4, fset_other by auto. apply C3; exact R. }
  destruct (w s q) as [|o|o|] eqn:W.
  - exfalso. apply C. apply (contents_null q G). exact W.
  - apply (H o); [right; reflexivity|exact E].
  - apply (H o); [left; reflexivity|exact E].
  - exfalso. apply (i1 (proj1 G) q W).
Qed.
Lemma assign_from_ok s q p i conv x s' b : Good s -> p <> q -> contents s p = None -> ifc s p = Some i -> ifc s q <> None -> nobody x = true -> assign_from s q p i conv x = (s', b) ->
  GoodX q s' /\ ifc s' = ifc s /\ (b = true -> x <> TNone) /\ forall r, r <> q -> contents s' r = fset (contents s) p (if b then None else contents s q) r.
Proof.
  intros G N C F F2 X E. unfold assign_from in E. destruct (null (w s q)) eqn:U.
  { injection E as <- <-. apply (null_iff q G) in U. split; [apply good_x; exact G|split; [reflexivity|split; [discriminate|]]]. intros r R. rewrite U. ff. }
  pose proof (null_false q G U) as NQ. destruct (negb conv); [apply (@slice_ok s q p i x s' b G N NQ F X E)|].
  destruct (tagged (w s q)) eqn:T; [|apply (@slice_ok s q p i x s' b G N NQ F X E)].
  injection E as <- <-. destruct (w s q) as [|o|o|] eqn:W; try discriminate.
  pose proof (proj1 (contents_null p G) C) as WP.
  assert (Q : forall r, fset (fset (w s) p (WHeap o)) q WNull r = w (swap_words s p q) r).
  { intros r. cbn. rewrite W, WP. ff. }
  destruct (@swap_words_ok s p q G N) as [A [B D]]; try congruence; [rewrite WP; reflexivity|].
  assert (I' : Inv (set_w (set_w s p (WHeap o)) q WNull)).
  { destruct A as [I _]. apply (@inv_relabel (swap_words s p q) (fun r => r) I); auto. apply (i2 I). }
  split; [split; [exact I'|]|split; [reflexivity|split; [discriminate|]]].
  - intros r o' R H. cbn [w set_w] in H. rewrite Q in H. apply (proj2 A r o' H).
  - intros r R. unfold contents at 1. cbn [w set_w val]. rewrite Q. transitivity (contents (swap_words s p q) r); [reflexivity|]. rewrite D. rewrite fset_other by auto. ff.
Qed.

(** ** The refinement *)
Definition abs s r : option (option nat) := match ifc s r with None => None | Some _ => Some (contents s r) end.
Definition Rel s (m : spec) := Good s /\ ifc s 0 = None /\ ifc s 1 = None /\ forall r, m r = abs s r.
Lemma construct_any_ok s p i t v x s' b : Good s -> ifc s p = None -> (x = TBody -> is_small i t = false) -> construct_any s p i t v x = (s', b) ->
  Good s' /\ (b = true -> x <> TNone) /\ (forall r, ifc s' r = if b then ifc s r else fset (ifc s) p (Some i) r) /\ forall r, contents s' r = if b then contents s r else fset (contents s) p (Some v) r.
Proof.
  intros G F NB E. unfold construct_any in E. destruct (new_ok p i G F) as [G1 C1]. set (s1 := set_ifc (set_w s p WNull) p (Some i)) in *.
  destruct (emplace_into s1 p i t v x) as [s2 b2] eqn:E2.
  assert (X1 : contents s1 p = None) by (rewrite C1; apply contents_none; auto). assert (X2 : ifc s1 p = Some i) by (cbn; apply fset_same).
  destruct (@emplace_ok _ _ _ _ _ _ _ _ G1 X1 X2 E2 NB) as [B1 [B2 [B3 B4]]]. destruct b2; injection E as <- <-.
  - destruct (dtor_ok p B1) as [D1 [D2 D3]]. split; [exact D1|split; [exact B3|split]].
    + intros r. rewrite D2, B2. cbn. ff.
    + intros r. rewrite D3. unfold fset. rewrite B4, C1. destruct (Nat.eqb_spec r p) as [->|]; auto. symmetry. apply contents_none; auto.
  - split; [exact B1|split; [exact B3|split]].
    + intros r. rewrite B2. reflexivity.
    + intros r. rewrite B4. unfold fset. rewrite C1. reflexivity.
Qed.
Lemma same_if_eq i j : same_if i j = true -> i = j.
Proof. unfold same_if. intros H. apply andb_prop in H. destruct H as [H H3]. apply andb_prop in H. destruct H as [H1 H2]. apply Nat.eqb_eq in H1, H2. apply eqb_prop in H3. destruct i, j; cbn in *; congruence. Qed.
Lemma free_ok s p : free_name s p = true -> 1 < p /\ ifc s p = None.
Proof. unfold free_name. intros H. apply andb_prop in H. destruct H as [H1 H2]. apply Nat.ltb_lt in H1. destruct (ifc s p); [discriminate|auto]. Qed.
Lemma step_ok s m a s' b : Rel s m -> fails_in_buffer a = false -> step s a = Some (s', b) -> Rel s' (sstep m a b) /\ (b = true -> throws_at a <> TNone).
Proof.
  intros [G [Z0 [Z1 R]]] FB E. unfold step in E. destruct a as [p i|p i t v x|p i t v x|p q|p q x|p q i conv x|p q|p q x|p q conv x|p t v x|p q|p v|p|p]; cbn [sstep throws_at].
  - (* ONew *) destruct (free_name s p) eqn:FN; [|discriminate]. injection E as <- <-. apply free_ok in FN. destruct FN as [P F].
    destruct (new_ok p i G F) as [G1 C1]. split; [|discriminate]. split; [exact G1|]. cbn [ifc set_ifc set_w]. rewrite !fset_other by lia. split; [|split]; auto.
    intros r. unfold abs. rewrite C1. cbn [ifc set_ifc set_w]. unfold fset. destruct (Nat.eqb_spec r p) as [->|]; [rewrite (contents_none p G F); reflexivity|apply R].
  - (* ONewValue *) destruct (free_name s p) eqn:FN; [|discriminate]. destruct (nobody x) eqn:NB; [|discriminate]. cbn [andb] in E. injection E as E. apply free_ok in FN. destruct FN as [P F].
    assert (NB' : x = TBody -> is_small i t = false) by (intros ->; discriminate).
    destruct (@construct_any_ok _ _ _ _ _ _ _ _ G F NB' E) as [G1 [B [F1 C1]]]. split; [|exact B]. split; [exact G1|].
    rewrite !F1. split; [destruct b; rewrite ?fset_other by lia; auto|split; [destruct b; rewrite ?fset_other by lia; auto|]].
    intros r. unfold abs. rewrite F1, C1. destruct b; [apply R|]. unfold fset. destruct (r =? p); [reflexivity|apply R].
  - (* ONewFrom *) destruct (free_name s p) eqn:FN; [|discriminate]. injection E as E. apply free_ok in FN. destruct FN as [P F].
    assert (NB' : x = TBody -> is_small i t = false) by (intros ->; exact FB).
    destruct (@construct_any_ok _ _ _ _ _ _ _ _ G F NB' E) as [G1 [B [F1 C1]]]. split; [|exact B]. split; [exact G1|].
    rewrite !F1. split; [destruct b; rewrite ?fset_other by lia; auto|split; [destruct b; rewrite ?fset_other by lia; auto|]].
    intros r. unfold abs. rewrite F1, C1. destruct b; [apply R|]. unfold fset. destruct (r =? p); [reflexivity|apply R].
  - (* OMove *) destruct (ifc s q) as [i|] eqn:Fq; [|discriminate]. destruct (free_name s p) eqn:FN; [|discriminate]. destruct (movable i); [|discriminate]. cbn [andb] in E. injection E as <- <-.
    apply free_ok in FN. destruct FN as [P F]. assert (N : p <> q) by congruence.
    destruct (@move_ctor_ok s p q i G N F Fq) as [G1 [F1 C1]]. split; [|discriminate]. split; [exact G1|]. rewrite F1, !fset_other by lia. split; [|split]; auto.
    intros r. unfold abs. rewrite F1, C1. pose proof (R q) as Rq. unfold abs in Rq. rewrite Fq in Rq. unfold fset. rewrite Rq.
    destruct (Nat.eqb_spec r q) as [->|]; [|destruct (r =? p); [reflexivity|apply R]]. rewrite Fq. destruct (Nat.eqb_spec q p); [congruence|reflexivity].
  - (* OCopy *) destruct (ifc s q) as [i|] eqn:Fq; [|discriminate]. destruct (free_name s p) eqn:FN; [|discriminate]. destruct (nobody x) eqn:NB; [|discriminate]. cbn [andb] in E. injection E as E.
    apply free_ok in FN. destruct FN as [P F]. assert (N : p <> q) by congruence.
    destruct (@copy_ctor_ok s p q i x s' b G N F NB E) as [G1 [B [F1 C1]]]. split; [|exact B]. split; [exact G1|].
    rewrite !F1. split; [destruct b; rewrite ?fset_other by lia; auto|split; [destruct b; rewrite ?fset_other by lia; auto|]].
    intros r. unfold abs. rewrite F1, C1. destruct b; [apply R|]. pose proof (R q) as Rq. unfold abs in Rq. rewrite Fq in Rq. unfold fset. rewrite Rq. destruct (r =? p); [reflexivity|apply R].
  - (* OConv *) destruct (ifc s q) as [j|] eqn:Fq; [|discriminate]. destruct (free_name s p) eqn:FN; [|discriminate]. destruct (movable i); [|discriminate]. destruct (movable j); [|discriminate].
    destruct (nobody x) eqn:NB; [|discriminate]. cbn [andb] in E. apply free_ok in FN. destruct FN as [P F]. assert (N : p <> q) by congruence. assert (Q1 : 1 <> q) by congruence.
    destruct (@move_ctor_ok s 1 q j G Q1 Z1 Fq) as [G1 [F1 C1]]. set (s1 := move_ctor s 1 q j) in *.
    assert (Fp1 : ifc s1 p = None) by (rewrite F1, fset_other by lia; exact F).
    destruct (new_ok p i G1 Fp1) as [G2 C2]. set (s2 := set_ifc (set_w s1 p WNull) p (Some i)) in *.
    destruct (assign_from s2 1 p i conv x) as [s3 b3] eqn:E3. injection E as <- <-.
    assert (A1 : contents s2 p = None) by (rewrite C2; apply contents_none; auto). assert (A2 : ifc s2 p = Some i) by (cbn; apply fset_same).
    assert (A3 : ifc s2 1 <> None) by (cbn; rewrite fset_other, F1, fset_same by lia; discriminate). assert (P1 : p <> 1) by lia.
    destruct (@assign_from_ok s2 1 p i conv x s3 b3 G2 P1 A1 A2 A3 NB E3) as [G3 [F3 [B C3]]]. split; [|exact B].
    assert (G4 : GoodX 1 (if b3 then dtor s3 p else s3) /\ (forall r, ifc (if b3 then dtor s3 p else s3) r = if b3 then fset (ifc s1) p None r else fset (ifc s1) p (Some i) r) /\
      forall r, r <> 1 -> contents (if b3 then dtor s3 p else s3) r = if b3 then fset (contents s1) p None r else fset (contents s1) p (contents s1 1) r).
    { destruct b3.
      - destruct (dtorx p G3) as [D1 [D2 D3]]. split; [exact D1|split].
        + intros r. rewrite D2, F3. cbn. ff.
        + intros r R1. rewrite D3. unfold fset. destruct (Nat.eqb_spec r p); auto. rewrite C3, fset_other by auto. apply C2.
      - split; [exact G3|split].
        + intros r. rewrite F3. reflexivity.
        + intros r R1. rewrite C3 by exact R1. unfold fset. rewrite !C2. reflexivity. }
    destruct G4 as [G4 [F4 C4]]. set (s4 := if b3 then dtor s3 p else s3) in *. destruct (dtorx_same G4) as [D1 [D2 D3]].
    split; [exact D1|]. rewrite D2. split; [|split].
    + rewrite fset_other by lia. rewrite F4. destruct b3; rewrite fset_other, F1, fset_other by lia; exact Z0.
    + apply fset_same.
    + intros r. unfold abs. rewrite D2, D3. destruct (Nat.eq_dec r 1) as [->|R1].
      { rewrite !fset_same. destruct b3; rewrite ?fset_other by auto; rewrite R; unfold abs; rewrite Z1; reflexivity. }
      rewrite !(@fset_other _ _ 1 r) by exact R1. rewrite F4, C4 by exact R1. pose proof (R q) as Rq. unfold abs in Rq. rewrite Fq in Rq.
      rewrite !C1, F1. destruct (Nat.eq_dec r q) as [->|Rq1].
      { rewrite fset_same. destruct b3; rewrite (@fset_other _ (fset (ifc s) 1 _) p q), (@fset_other _ (ifc s) 1 q), Fq by auto; f_equal; symmetry.
        - rewrite fset_other, C1, fset_same by auto. reflexivity.
        - rewrite fset_other, C1, fset_same by auto. reflexivity. }
      rewrite (@fset_other _ _ q r) by exact Rq1. destruct (Nat.eq_dec r p) as [->|Rp].
      { destruct b3; rewrite !fset_same; [rewrite R; unfold abs; rewrite F; reflexivity|]. rewrite Rq. f_equal. symmetry. rewrite fset_other, fset_same by auto. reflexivity. }
      destruct b3; rewrite !(@fset_other _ _ p r) by exact Rp; rewrite C1, !(@fset_other _ _ 1 r), (@fset_other _ _ q r), ?(@fset_other _ _ 1 r) by auto; apply R.
  - (* OAssign *) destruct (ifc s p) as [i|] eqn:Fp; [|discriminate]. destruct (ifc s q) as [j|] eqn:Fq; [|discriminate]. destruct (movable i); [|discriminate].
    destruct (same_if i j) eqn:SI; [|discriminate]. apply same_if_eq in SI. subst j. cbn [andb] in E. injection E as <- <-. split; [|discriminate].
    destruct (Nat.eqb_spec p q) as [<-|N]; [split; auto|].
    destruct (reset_ok p G) as [G1 [F1 C1]]. assert (A1 : contents (reset s p) p = None) by (rewrite C1; apply fset_same).
    destruct (@swap1_ok (reset s p) p q i G1 N (or_introl A1)) as [G2 [F2 C2]]; try (rewrite F1; assumption).
    split; [exact G2|]. rewrite F2, F1. split; [|split]; auto. intros r. unfold abs. rewrite F2, F1, C2. unfold swapped. rewrite A1. pose proof (R q) as Rq. unfold abs in Rq. rewrite Fq in Rq.
    destruct (Nat.eq_dec r q) as [->|R1]; [rewrite !fset_same, Fq; reflexivity|]. rewrite !(@fset_other _ _ q r) by exact R1.
    destruct (Nat.eq_dec r p) as [->|R2]; [rewrite !fset_same, Fp, C1, fset_other by auto; exact Rq|]. rewrite !(@fset_other _ _ p r) by exact R2. rewrite C1, fset_other by exact R2. apply R.
  - (* OCopyAssign *) destruct (ifc s p) as [i|] eqn:Fp; [|discriminate]. destruct (ifc s q) as [j|] eqn:Fq; [|discriminate]. destruct (movable i); [|discriminate].
    destruct (same_if i j) eqn:SI; [|discriminate]. apply same_if_eq in SI. subst j. destruct (nobody x) eqn:NB; [|discriminate]. cbn [andb] in E.
    destruct (Nat.eqb_spec p q) as [<-|N].
    { injection E as <- <-. split; [|discriminate]. split; [exact G|]. split; [|split]; auto. intros r. unfold fset. destruct (Nat.eqb_spec r p) as [->|]; apply R. }
    assert (Q1 : 1 <> q) by congruence. assert (P1 : 1 <> p) by congruence.
    destruct (copy_ctor s 1 q i x) as [s1 b1] eqn:E1. destruct (@copy_ctor_ok s 1 q i x s1 b1 G Q1 Z1 NB E1) as [G1 [B [F1 C1]]].
    destruct b1; injection E as <- <-; (split; [|exact B || discriminate]).
    { split; [exact G1|]. rewrite !F1. split; [|split]; auto. intros r. unfold abs. rewrite F1, C1. apply R. }
    assert (P0 : p <> 0) by congruence.
    destruct (@swap_ok s1 1 p i G1 (Nat.neq_succ_0 0) P0) as [G2 [F2 C2]]; rewrite ?F1; try (rewrite ?fset_same, ?fset_other by auto; auto; fail).
    destruct (dtor_ok 1 G2) as [D1 [D2 D3]]. split; [exact D1|]. rewrite D2. split; [|split].
    + rewrite fset_other, F2, F1, fset_other by auto. exact Z0.
    + apply fset_same.
    + intros r. unfold abs. rewrite D2, D3. destruct (Nat.eq_dec r 1) as [->|R1].
      { rewrite fset_same. rewrite fset_other by auto. rewrite R. unfold abs. rewrite Z1. reflexivity. }
      rewrite !(@fset_other _ _ 1 r) by exact R1. rewrite F2, F1, C2. rewrite (@fset_other _ (ifc s) 1 r) by exact R1. unfold swapped. pose proof (R q) as Rq. unfold abs in Rq. rewrite Fq in Rq.
      destruct (Nat.eq_dec r p) as [->|Rp].
      * rewrite !fset_same, Fp, Rq. rewrite C1, fset_same. reflexivity.
      * rewrite !fset_other by auto. rewrite C1, fset_other by auto. apply R.
  - (* OConvAssign *) destruct (ifc s p) as [i|] eqn:Fp; [|discriminate]. destruct (ifc s q) as [j|] eqn:Fq; [|discriminate]. destruct (Nat.eqb_spec p q) as [|N]; [discriminate|]. destruct (movable i); [|discriminate]. destruct (movable j); [|discriminate].
    destruct (nobody x) eqn:NB; [|discriminate]. cbn [andb negb] in E. assert (Q1 : 1 <> q) by congruence. assert (P1 : p <> 1) by congruence.
    destruct (@move_ctor_ok s 1 q j G Q1 Z1 Fq) as [G1 [F1 C1]]. set (s1 := move_ctor s 1 q j) in *.
    destruct (reset_ok p G1) as [G2 [F2 C2]]. set (s2 := reset s1 p) in *. destruct (assign_from s2 1 p i conv x) as [s3 b3] eqn:E3. injection E as <- <-.
    assert (A1 : contents s2 p = None) by (rewrite C2; apply fset_same). assert (A2 : ifc s2 p = Some i) by (rewrite F2, F1, fset_other by auto; exact Fp).
    assert (A3 : ifc s2 1 <> None) by (rewrite F2, F1, fset_same; discriminate).
    destruct (@assign_from_ok s2 1 p i conv x s3 b3 G2 P1 A1 A2 A3 NB E3) as [G3 [F3 [B C3]]]. split; [|exact B].
    destruct (dtorx_same G3) as [D1 [D2 D3]]. split; [exact D1|]. rewrite D2, F3, F2, F1. split; [|split].
    + rewrite !fset_other by auto. exact Z0.
    + apply fset_same.
    + intros r. unfold abs. rewrite D2, D3, F3, F2, F1. destruct (Nat.eq_dec r 1) as [->|R1].
      { rewrite fset_same. rewrite !fset_other by auto. rewrite R. unfold abs. rewrite Z1. reflexivity. }
      rewrite !(@fset_other _ _ 1 r) by exact R1. rewrite C3 by exact R1. pose proof (R q) as Rq. unfold abs in Rq. rewrite Fq in Rq.
      destruct (Nat.eq_dec r q) as [->|Rq1].
      { rewrite fset_same, Fq. f_equal. symmetry. rewrite fset_other, C2, fset_other, C1, fset_same by auto. reflexivity. }
      rewrite (@fset_other _ _ q r) by exact Rq1. destruct (Nat.eq_dec r p) as [->|Rp].
      { rewrite !fset_same, Fp. destruct b3; [reflexivity|]. rewrite Rq. f_equal. symmetry. rewrite C2, fset_other, C1, fset_other, fset_same by auto. reflexivity. }
      rewrite !(@fset_other _ _ p r) by exact Rp. rewrite C2, fset_other, C1, !fset_other by auto. apply R.
  - (* OEmplace *) destruct (ifc s p) as [i|] eqn:Fp; [|discriminate]. destruct (nobody x) eqn:NB; [|discriminate]. injection E as E.
    destruct (reset_ok p G) as [G1 [F1 C1]]. assert (A1 : contents (reset s p) p = None) by (rewrite C1; apply fset_same).
    assert (A2 : ifc (reset s p) p = Some i) by (rewrite F1; exact Fp). assert (NB' : x = TBody -> is_small i t = false) by (intros ->; discriminate).
    destruct (@emplace_ok _ _ _ _ _ _ _ _ G1 A1 A2 E NB') as [B1 [B2 [B3 B4]]]. split; [|exact B3]. split; [exact B1|]. rewrite B2, F1. split; [|split]; auto.
    intros r. unfold abs. rewrite B2, F1, B4. unfold fset. rewrite C1. unfold fset. destruct (Nat.eqb_spec r p) as [->|]; [rewrite Fp; destruct b; reflexivity|]. destruct b; apply R.
  - (* OSwap *) destruct (ifc s p) as [i|] eqn:Fp; [|discriminate]. destruct (ifc s q) as [j|] eqn:Fq; [|discriminate]. destruct (movable i); [|discriminate].
    destruct (same_if i j) eqn:SI; [|discriminate]. apply same_if_eq in SI. subst j. cbn [andb] in E. injection E as <- <-. split; [|discriminate].
    assert (P0 : p <> 0) by congruence. assert (Q0 : q <> 0) by congruence. destruct (@swap_ok s p q i G P0 Q0 Z0 Fp Fq) as [G1 [F1 C1]].
    split; [exact G1|]. rewrite !F1. split; [|split]; auto. intros r. unfold abs. rewrite F1, C1. unfold swapped, fset. pose proof (R q) as Rq. pose proof (R p) as Rp. unfold abs in Rq, Rp. rewrite Fq in Rq. rewrite Fp in Rp.
    destruct (Nat.eqb_spec r q) as [->|]; [rewrite Fq; exact Rp|]. destruct (Nat.eqb_spec r p) as [->|]; [rewrite Fp; exact Rq|apply R].
  - (* OSet *) destruct G as [I V].
    assert (H : forall o, holds (w s p) o -> (emit (set_val s o (Some v)) (EUse o), false) = (s', b) -> Rel s' (fset m p (Some (Some v))) /\ (b = true -> TNone <> TNone)).
    { intros o H X. injection X as <- <-. split; [|discriminate]. split; [split|split; [exact Z0|split; [exact Z1|]]].
      - apply (@inv_use (set_val s o (Some v)) p o); [apply inv_val; exact I|exact H].
      - intros r o' Hr. cbn [val emit set_val]. unfold fset. destruct (o' =? o); [discriminate|apply (V r o' Hr)].
      - intros r. unfold abs, contents. cbn [ifc w val emit set_val]. unfold fset at 1. destruct (Nat.eqb_spec r p) as [->|Rp].
        + destruct (ifc s p) eqn:Fp; [|apply (i2 I) in Fp; rewrite Fp in H; destruct (holds_null H)]. destruct H as [-> | ->]; rewrite fset_same; reflexivity.
        + rewrite R. unfold abs, contents. destruct (ifc s r); auto. f_equal.
          destruct (w s r) as [|o'|o'|] eqn:Wr; auto; rewrite fset_other; auto; intros ->; apply Rp; apply (i3 I r p (o := o)); auto; rewrite Wr; [right|left]; reflexivity. }
    destruct (w s p) as [|o|o|] eqn:W; [discriminate| | |exfalso; apply (i1 I p W)]; injection E as E1 E2; apply (H o); [right; reflexivity|congruence|left; reflexivity|congruence].
  - (* OReset *) destruct (ifc s p) as [i|] eqn:Fp; [|discriminate]. injection E as <- <-. split; [|discriminate].
    destruct (reset_ok p G) as [G1 [F1 C1]]. split; [exact G1|]. rewrite F1. split; [|split]; auto. intros r. unfold abs. rewrite F1, C1. unfold fset. destruct (Nat.eqb_spec r p) as [->|]; [rewrite Fp; reflexivity|apply R].
  - (* ODestroy *) destruct (ifc s p) as [i|] eqn:Fp; [|discriminate]. injection E as <- <-. split; [|discriminate].
    destruct (dtor_ok p G) as [G1 [F1 C1]]. assert (p <> 0) by congruence. assert (p <> 1) by congruence. split; [exact G1|]. rewrite F1, !fset_other by auto. split; [|split]; auto.
    intros r. unfold abs. rewrite F1, C1. unfold fset. destruct (Nat.eqb_spec r p) as [->|]; [reflexivity|apply R].
Qed.
Lemma rel_init : Rel init sinit.
Proof.
  split; [split; [constructor|]|]; cbn; auto; try discriminate; try (intros; repeat split; auto; fail); try (intros p q o H; destruct (holds_null H)); try (intros p o H; destruct (holds_null H)).
Qed.
Lemma runs_ok : forall l s m s' bs, Rel s m -> (forall a, In a l -> fails_in_buffer a = false) -> runs l s = Some (s', bs) ->
  Rel s' (sruns m l bs) /\ forall n a, nth_error l n = Some a -> nth_error bs n = Some true -> throws_at a <> TNone.
Proof.
  induction l as [|a l IH]; intros s m s' bs R F H; cbn [runs] in H.
  - injection H as <- <-. split; [exact R|]. intros [|n] a; discriminate.
  - destruct (step s a) as [[s1 b]|] eqn:E; [|discriminate]. destruct (runs l s1) as [[s2 bs2]|] eqn:E2; [|discriminate]. injection H as <- <-.
    destruct (@step_ok s m a s1 b R (F a (or_introl eq_refl)) E) as [R1 B]. destruct (IH s1 _ s2 bs2 R1 (fun x X => F x (or_intror X)) E2) as [R2 B2].
    split; [exact R2|]. intros [|n] a' A1 A2; cbn in *; [|eauto]. injection A1 as <-. injection A2 as ->. auto.
Qed.

(** ** Theorems *)
(** Whatever the program does with its anys, they contain what the specification says, wherever the values are stored,
    provided that no function constructing a value in the buffer throws. *)
Theorem any_value_semantics_partial l s bs : runs l init = Some (s, bs) -> (forall a, In a l -> fails_in_buffer a = false) ->
  forall p, sruns sinit l bs p = match ifc s p with None => None | Some _ => Some (contents s p) end.
Proof. intros H F. apply (proj1 (@runs_ok l init sinit s bs rel_init F H)). Qed.
(** Every object is used and destroyed while it is alive, memory is released when it is allocated and empty. *)
Theorem any_lifetimes_partial l s bs : runs l init = Some (s, bs) -> (forall a, In a l -> fails_in_buffer a = false) -> proper (log s).
Proof. intros H F. destruct (proj1 (@runs_ok l init sinit s bs rel_init F H)) as [[I _] _]. apply I. Qed.
(** When the anys are destroyed, every object that was constructed has been destroyed exactly once and all memory has been released
    exactly once. *)
Theorem any_no_leak_partial l s bs : runs l init = Some (s, bs) -> (forall a, In a l -> fails_in_buffer a = false) ->
  (forall p, ifc s p = None) ->
  forall o, times (isC o) (log s) = times (isD o) (log s) /\ times (isC o) (log s) <= 1 /\ times (isA o) (log s) = times (isF o) (log s) /\ times (isA o) (log s) <= 1.
Proof.
  intros H F N o. destruct (proj1 (@runs_ok l init sinit s bs rel_init F H)) as [[I _] _].
  destruct (@i8 _ I o) as [A [B [C D]]]; [intros p X; rewrite (i2 I p (N p)) in X; destruct (holds_null X)|]. auto.
Qed.
(** A value in the buffer fits it, and, if the any can be moved, its move constructor does not throw. *)
Theorem any_in_buffer_fits_partial l s bs : runs l init = Some (s, bs) -> (forall a, In a l -> fails_in_buffer a = false) ->
  forall p o i, w s p = WSitu o -> ifc s p = Some i -> size (oty s o) <= bsize i /\ (movable i = true -> nothrow (oty s o) = true).
Proof.
  intros H F p o i W J. destruct (proj1 (@runs_ok l init sinit s bs rel_init F H)) as [[I _] _]. destruct (@i4 _ I p o W) as [i' [J' S]]. rewrite J in J'. injection J' as <-.
  unfold is_small in S. apply andb_prop in S. destruct S as [S1 S2]. split; [apply Nat.leb_le; exact S1|]. intros M. rewrite M in S2. exact S2.
Qed.
(** An operation throws only if the allocator or a constructor of a value throws; moving and swapping never do. *)
Theorem any_throws_only_if_partial l s bs : runs l init = Some (s, bs) -> (forall a, In a l -> fails_in_buffer a = false) ->
  forall n a, nth_error l n = Some a -> nth_error bs n = Some true -> throws_at a <> TNone.
Proof. intros H F. apply (proj2 (@runs_ok l init sinit s bs rel_init F H)). Qed.

(** Objects in buffers are aligned if no type needs more than the interfaces' buffers provide. *)
Definition types_of (a : op) : list ty := match a with ONewValue _ _ t _ _ | ONewFrom _ _ t _ _ | OEmplace _ t _ _ => [t] | _ => [] end.
Definition ifaces_of (a : op) : list iface := match a with ONew _ i | ONewValue _ i _ _ _ | ONewFrom _ i _ _ _ | OConv _ _ i _ _ => [i] | _ => [] end.
Section Aligned.
  Variable B : nat.
  Definition Al s := (forall o, B mod align (oty s o) = 0) /\ (forall p i, ifc s p = Some i -> balign i = B) /\ forall o, ~ In (EMis o) (log s).
  Lemma al_emit s e : Al s -> (forall o, e <> EMis o) -> Al (emit s e).
  Proof. intros [A [C D]] N. split; [exact A|split; [exact C|]]. intros o [X|X]; [apply (N o X)|apply (D o X)]. Qed.
  Lemma al_w s p x : Al s -> Al (set_w s p x). Proof. intros H. exact H. Qed.
  Lemma al_val s o x : Al s -> Al (set_val s o x). Proof. intros H. exact H. Qed.
  Lemma al_ifc s p x : Al s -> (forall i, x = Some i -> balign i = B) -> Al (set_ifc s p x).
  Proof. intros [A [C D]] N. split; [exact A|split; [|exact D]]. intros q i. cbn. unfold fset. destruct (q =? p); [apply N|apply C]. Qed.
  Lemma al_construct s o t v : Al s -> B mod align t = 0 -> Al (construct s o t v).
  Proof. intros [A [C D]] N. split; [|split; [exact C|]]. - intros o'. cbn. unfold fset. destruct (o' =? o); auto. - intros o' [X|X]; [discriminate|apply (D o' X)]. Qed.
  Lemma al_emplace s p i t v x : Al s -> balign i = B -> B mod align t = 0 -> Al (fst (emplace_into s p i t v x)).
  Proof.
    intros H E N. unfold emplace_into. rewrite E, N. cbn [Nat.eqb].
    destruct (is_small i t), x; cbn [fst]; repeat first [apply al_w | apply al_emit; [|discriminate] | apply al_construct; [|assumption]]; exact H.
  Qed.
  Lemma al_reset s p : Al s -> Al (reset s p).
  Proof. intros H. unfold reset. destruct (w s p); repeat first [apply al_w | apply al_emit; [|discriminate]]; exact H. Qed.
  Lemma al_dtor s p : Al s -> Al (dtor s p).
  Proof. intros H. apply al_ifc; [apply al_reset; exact H|discriminate]. Qed.
  Lemma al_mte s p q i : Al s -> balign i = B -> Al (move_to_empty s p q i).
  Proof.
    intros H E. unfold move_to_empty. destruct (w s p) as [|o|o|]; try (apply al_emit; [exact H|discriminate]); try exact H.
    cbn [take]. apply al_reset. apply al_emplace; auto; [apply al_val; apply al_emit; [exact H|discriminate]|apply H].
  Qed.
  Lemma al_swap1 s p q i : Al s -> balign i = B -> Al (swap1 s p q i).
  Proof. intros H E. unfold swap1. destruct (tagged (w s p) && tagged (w s q)); [exact H|]. destruct (null (w s p)); apply al_mte; auto. Qed.
  Lemma al_move s p q i : Al s -> balign i = B -> Al (move_ctor s p q i).
  Proof. intros H E. unfold move_ctor. apply al_swap1; auto. apply al_ifc; [exact H|congruence]. Qed.
  Lemma al_swap s p q i : Al s -> balign i = B -> Al (swap s p q i).
  Proof.
    intros H E. unfold swap. destruct (p =? q); [exact H|]. destruct (tagged (w s p) && tagged (w s q)); [exact H|]. destruct (null (w s p)); [apply al_mte; auto|]. destruct (null (w s q)); [apply al_mte; auto|].
    apply al_dtor. repeat (apply al_mte; auto). apply al_move; auto.
  Qed.
  Lemma al_copy s p q i x : Al s -> balign i = B -> Al (fst (copy_ctor s p q i x)).
  Proof.
    intros H E. unfold copy_ctor. set (s1 := set_ifc (set_w s p WNull) p (Some i)). assert (A1 : Al s1) by (apply al_ifc; [exact H|congruence]).
    assert (A2 : forall o v, Al (fst (emplace_into (emit s1 (EUse o)) p i (oty s1 o) v x))) by (intros o v; apply al_emplace; auto; [apply al_emit; [exact A1|discriminate]|apply A1]).
    destruct (w s1 q) as [|o|o|]; [exact A1| | |apply al_emit; [exact A1|discriminate]].
    all: match goal with |- context[emplace_into ?a ?b ?c ?d ?e ?f] => specialize (A2 o e); destruct (emplace_into a b c d e f) as [s2 b2] end; cbn [fst] in A2; destruct b2; cbn [fst]; [apply al_dtor|]; exact A2.
  Qed.
  Lemma al_slice s q p i x : Al s -> balign i = B -> Al (fst (slice s q p i x)).
  Proof.
    intros H E. unfold slice. assert (A1 : Al (reset s p)) by (apply al_reset; exact H).
    assert (A2 : forall o v, Al (fst (emplace_into (set_val (emit (reset s p) (EUse o)) o None) p i (oty (set_val (emit (reset s p) (EUse o)) o None) o) v x)))
      by (intros o v; apply al_emplace; auto; [apply al_val; apply al_emit; [exact A1|discriminate]|apply A1]).
    destruct (w s q) as [|o|o|]; try (apply al_emit; [exact H|discriminate]).
    all: cbn [take]; match goal with |- context[emplace_into ?a ?b ?c ?d ?e ?f] => specialize (A2 o e); destruct (emplace_into a b c d e f) as [s2 b2] end; cbn [fst] in A2; destruct b2; cbn [fst]; [|apply al_reset]; exact A2.
  Qed.
  Lemma al_assign s q p i c x : Al s -> balign i = B -> Al (fst (assign_from s q p i c x)).
  Proof. intros H E. unfold assign_from. destruct (null (w s q)); [exact H|]. destruct (negb c); [apply al_slice; auto|]. destruct (tagged (w s q)); [exact H|apply al_slice; auto]. Qed.
  Lemma al_construct_any s p i t v x : Al s -> balign i = B -> B mod align t = 0 -> Al (fst (construct_any s p i t v x)).
  Proof.
    intros H E N. unfold construct_any. set (s1 := set_ifc (set_w s p WNull) p (Some i)). assert (A1 : Al s1) by (apply al_ifc; [exact H|congruence]).
    pose proof (@al_emplace s1 p i t v x A1 E N) as A2. destruct (emplace_into s1 p i t v x) as [s2 b]. cbn [fst] in A2. destruct b; cbn [fst]; [apply al_dtor|]; exact A2.
  Qed.
  Lemma al_step s a s' b : Al s -> (forall t, In t (types_of a) -> B mod align t = 0) -> (forall i, In i (ifaces_of a) -> balign i = B) -> step s a = Some (s', b) -> Al s'.
  Proof.
    intros H T I E. unfold step in E. destruct a as [p i|p i t v x|p i t v x|p q|p q x|p q i conv x|p q|p q x|p q conv x|p t v x|p q|p v|p|p]; cbn [types_of ifaces_of In] in *.
    - destruct (free_name s p); [|discriminate]. injection E as <- <-. apply al_ifc; [exact H|]. intros j [= <-]. auto.
    - destruct (free_name s p && nobody x); [|discriminate]. injection E as E. pose proof (@al_construct_any s p i t v x H (I i (or_introl eq_refl)) (T t (or_introl eq_refl))) as X. rewrite E in X. exact X.
    - destruct (free_name s p); [|discriminate]. injection E as E. pose proof (@al_construct_any s p i t v x H (I i (or_introl eq_refl)) (T t (or_introl eq_refl))) as X. rewrite E in X. exact X.
    - destruct (ifc s q) as [i|] eqn:Fq; [|discriminate]. destruct (free_name s p && movable i); [|discriminate]. injection E as <- <-. apply al_move; auto. apply (proj1 (proj2 H) q i Fq).
    - destruct (ifc s q) as [i|] eqn:Fq; [|discriminate]. destruct (free_name s p && nobody x); [|discriminate]. injection E as E. pose proof (@al_copy s p q i x H (proj1 (proj2 H) q i Fq)) as X. rewrite E in X. exact X.
    - destruct (ifc s q) as [j|] eqn:Fq; [|discriminate]. destruct (free_name s p && movable i && movable j && nobody x); [|discriminate].
      assert (A1 : Al (set_ifc (set_w (move_ctor s 1 q j) p WNull) p (Some i))).
      { apply al_ifc; [apply al_w; apply al_move; auto; apply (proj1 (proj2 H) q j Fq)|]. intros k [= <-]. auto. }
      pose proof (@al_assign _ 1 p i conv x A1 (I i (or_introl eq_refl))) as A2. destruct (assign_from _ 1 p i conv x) as [s3 b3]. cbn [fst] in A2. injection E as <- <-.
      apply al_dtor. destruct b3; [apply al_dtor|]; exact A2.
    - destruct (ifc s p) as [i|] eqn:Fp; [|discriminate]. destruct (ifc s q) as [j|] eqn:Fq; [|discriminate]. destruct (movable i && same_if i j); [|discriminate]. injection E as <- <-.
      destruct (p =? q); [exact H|]. apply al_swap1; [apply al_reset; exact H|apply (proj1 (proj2 H) p i Fp)].
    - destruct (ifc s p) as [i|] eqn:Fp; [|discriminate]. destruct (ifc s q) as [j|] eqn:Fq; [|discriminate]. destruct (movable i && same_if i j && nobody x); [|discriminate].
      destruct (p =? q); [injection E as <- <-; exact H|]. pose proof (@al_copy s 1 q i x H (proj1 (proj2 H) p i Fp)) as X. destruct (copy_ctor s 1 q i x) as [s1 b1]. cbn [fst] in X.
      destruct b1; injection E as <- <-; [exact X|]. apply al_dtor. apply al_swap; [exact X|apply (proj1 (proj2 H) p i Fp)].
    - destruct (ifc s p) as [i|] eqn:Fp; [|discriminate]. destruct (ifc s q) as [j|] eqn:Fq; [|discriminate]. destruct (negb (p =? q) && movable i && movable j && nobody x); [|discriminate].
      assert (A1 : Al (reset (move_ctor s 1 q j) p)) by (apply al_reset; apply al_move; auto; apply (proj1 (proj2 H) q j Fq)).
      pose proof (@al_assign _ 1 p i conv x A1 (proj1 (proj2 H) p i Fp)) as A2. destruct (assign_from _ 1 p i conv x) as [s3 b3]. cbn [fst] in A2. injection E as <- <-. apply al_dtor. exact A2.
    - destruct (ifc s p) as [i|] eqn:Fp; [|discriminate]. destruct (nobody x); [|discriminate]. injection E as E.
      pose proof (@al_emplace (reset s p) p i t v x (@al_reset s p H) (proj1 (proj2 H) p i Fp) (T t (or_introl eq_refl))) as X. rewrite E in X. exact X.
    - destruct (ifc s p) as [i|] eqn:Fp; [|discriminate]. destruct (ifc s q) as [j|] eqn:Fq; [|discriminate]. destruct (movable i && same_if i j); [|discriminate]. injection E as <- <-.
      apply al_swap; [exact H|apply (proj1 (proj2 H) p i Fp)].
    - destruct (w s p) as [|o|o|]; try discriminate; injection E as <- <-; repeat first [apply al_emit; [|discriminate] | apply al_val]; exact H.
    - destruct (ifc s p); [|discriminate]. injection E as <- <-. apply al_reset. exact H.
    - destruct (ifc s p); [|discriminate]. injection E as <- <-. apply al_dtor. exact H.
  Qed.
  Lemma al_runs : forall l s s' bs, Al s -> (forall a, In a l -> (forall t, In t (types_of a) -> B mod align t = 0) /\ forall i, In i (ifaces_of a) -> balign i = B) ->
    runs l s = Some (s', bs) -> Al s'.
  Proof.
    induction l as [|a l IH]; intros s s' bs H C R; cbn [runs] in R; [injection R as <- <-; exact H|].
    destruct (step s a) as [[s1 b]|] eqn:E; [|discriminate]. destruct (runs l s1) as [[s2 bs2]|] eqn:E2; [|discriminate]. injection R as <- <-.
    destruct (C a (or_introl eq_refl)) as [C1 C2]. apply (IH s1 s2 bs2); auto; [apply (al_step a H C1 C2 E)|]. intros x X. apply C. right; exact X.
  Qed.
End Aligned.
Theorem any_aligned_partial B l s bs : runs l init = Some (s, bs) ->
  (forall a, In a l -> (forall t, In t (types_of a) -> B mod align t = 0) /\ forall i, In i (ifaces_of a) -> balign i = B) ->
  forall o, ~ In (EMis o) (log s).
Proof.
  intros H C. assert (A : Al B init) by (split; [intros o; apply Nat.mod_1_r|split; [discriminate|intros o []]]).
  apply (@al_runs B l init s bs A C H).
Qed.

(** ** Concrete cases *)
Definition I32 := mkif 32 8 true.
Definition I64 := mkif 64 8 true.
Definition Tsmall := mkty 16 8 true.
Definition Tbig := mkty 100 8 true.
(** swapping a value in the buffer with one on the heap *)
Example any_swap_example :
  option_map (fun r => (contents (fst r) 2, contents (fst r) 3, snd r)) (runs [ONewValue 2 I32 Tsmall 5 TNone; ONewValue 3 I32 Tbig 7 TNone; OSwap 2 3] init) = Some (Some 7, Some 5, [false; false; false]).
Proof. vm_compute. reflexivity. Qed.
(** a failed copy assignment leaves the target as it was; a failed conversion loses the value but leaks nothing *)
Example any_throw_example :
  option_map (fun r => (contents (fst r) 2, contents (fst r) 3, snd r)) (runs [ONewValue 2 I32 Tsmall 5 TNone; ONewValue 3 I32 Tbig 7 TNone; OCopyAssign 2 3 TAlloc] init) = Some (Some 5, Some 7, [false; false; true]) /\
  option_map (fun r => (rev (log (fst r)), snd r)) (runs [ONewValue 2 I64 (mkty 48 8 true) 5 TNone; OConv 3 2 I32 true TAlloc; ODestroy 2] init) =
    Some ([ECtor 1 5; EUse 1; ECtor 2 5; EDtor 1; EUse 2; EDtor 2], [false; true; false]).
Proof. split; vm_compute; reflexivity. Qed.

(** ** Refuted statements *)
(** "An exception thrown by the function that makes the value leaves nothing behind": if the value would be stored in the buffer,
    the destructor of the any that runs next takes the half-written buffer for an object.  This is what happens when
    the connect of a sender inside an any_sender throws (/repo/include/exec/any_sender_of.hpp L544, buffer of 64 bytes L436). *)
Theorem any_lifetimes_refuted : ~ (forall l s bs, runs l init = Some (s, bs) -> proper (log s)).
Proof. intros H. specialize (H [ONewFrom 2 I32 Tsmall 5 TBody] _ _ eq_refl). destruct H as [_ []]. Qed.
(** "Objects are suitably aligned": a 16-byte aligned value of 16 bytes fits the default buffer, which is 8-byte aligned. *)
Theorem any_aligned_refuted : ~ (forall l s bs o, runs l init = Some (s, bs) -> ~ In (EMis o) (log s)).
Proof. intros H. apply (H [ONewValue 2 I32 (mkty 32 16 true) 5 TNone] _ _ 1 eq_refl). left. reflexivity. Qed.

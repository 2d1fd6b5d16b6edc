(** What a member does to the working array: it pops accepted elements off the
    front, remembers them in the innermost snapshot, and may lose elements only
    when an inner group commits. *)
From Coq Require Import List Bool ZArith NArith String Lia Arith.
From Verif Require Import Base Util Data Value Convert Ivt Scalar Validate Unfold Mono.
Import ListNotations.

(** [lsub L a b]: [a] is [b] without some elements that satisfy [L]. *)
Inductive lsub (L : value -> Prop) : list value -> list value -> Prop :=
| lsub_nil : lsub L [] []
| lsub_keep x a b : lsub L a b -> lsub L (x :: a) (x :: b)
| lsub_drop x a b : L x -> lsub L a b -> lsub L a (x :: b).

Lemma lsub_refl L a : lsub L a a.
Proof. induction a; constructor; auto. Qed.
Lemma lsub_trans L a b c : lsub L a b -> lsub L b c -> lsub L a c.
Proof.
  intros H1 H2; revert a H1; induction H2; intros a' H1; auto.
  - inversion H1; subst; constructor; auto.
  - constructor; auto.
Qed.
Lemma lsub_app L p a b : lsub L a b -> lsub L (p ++ a) (p ++ b).
Proof. intros; induction p; cbn; auto. constructor; auto. Qed.
Lemma lsub_app_drop L p a b : Forall L p -> lsub L (p ++ a) b -> lsub L a b.
Proof.
  intros F H. eapply lsub_trans; [|exact H]. clear H. induction F; cbn; [apply lsub_refl|].
  apply lsub_drop; auto.
Qed.
Lemma lsub_false a b : lsub (fun _ => False) a b -> a = b.
Proof. induction 1; f_equal; auto. contradiction. Qed.
Lemma lsub_length L a b : lsub L a b -> (List.length a <= List.length b)%nat.
Proof. induction 1; cbn; lia. Qed.
Lemma lsub_in L a b x : lsub L a b -> In x a -> In x b.
Proof. induction 1; cbn; intuition. Qed.
Lemma lsub_lost L a b x : lsub L a b -> In x b -> In x a \/ L x.
Proof. induction 1; cbn; intros; intuition (subst; auto). Qed.
Lemma lsub_weaken (L L' : value -> Prop) a b : (forall x, L x -> L' x) -> lsub L a b -> lsub L' a b.
Proof. intros H; induction 1; constructor; auto. Qed.

(** Remember popped elements in the innermost snapshot, if there is one. *)
Definition push {A} (p : list A) (snaps : list (list A)) : list (list A) :=
  match snaps with
  | [] => []
  | s :: r => (s ++ p) :: r
  end.
Lemma push_nil {A} (s : list (list A)) : push [] s = s.
Proof. destruct s; cbn; auto. rewrite app_nil_r. auto. Qed.
Lemma push_push {A} p q (s : list (list A)) : push q (push p s) = push (p ++ q) s.
Proof. destruct s; cbn; auto. rewrite app_assoc. auto. Qed.

Definition astep (P L : value -> Prop) (w w' : warray) : Prop :=
  exists p, Forall P p /\ lsub L (p ++ wa_array w') (wa_array w) /\
            wa_snaps w' = push p (wa_snaps w).

Lemma astep_refl P L w : astep P L w w.
Proof. exists []. repeat split; auto. apply lsub_refl. rewrite push_nil; auto. Qed.
Lemma astep_trans P L a b c : astep P L a b -> astep P L b c -> astep P L a c.
Proof.
  intros (p & Fp & Hp & Sp) (q & Fq & Hq & Sq). exists (p ++ q). repeat split.
  - apply Forall_app; auto.
  - rewrite <- app_assoc. eapply lsub_trans; [apply lsub_app; exact Hq|exact Hp].
  - rewrite Sq, Sp. apply push_push.
Qed.

Lemma rewind_fold (l a : list value) : fold_left (fun a e => e :: a) (rev l) a = l ++ a.
Proof.
  revert a; induction l using rev_ind; intros a; cbn; auto.
  rewrite rev_app_distr. cbn. rewrite IHl, <- app_assoc. reflexivity.
Qed.

Section Loops.
Context {St : Type}.
Variable R : St -> St -> Prop.
Hypothesis R_refl : forall s, R s s.
Hypothesis R_trans : forall a b c, R a b -> R b c -> R a c.
Variable f : node -> St -> option (res unit * St).

Lemma seq_step ms s r s' :
  (forall m s r s', In m ms -> f m s = Some (r, s') -> r <> Panic -> R s s') ->
  seq_loop f ms s = Some (r, s') -> r <> Panic -> R s s'.
Proof.
  intros H; revert s; induction ms as [|m ms IH]; cbn; intros s E N; [inversion E; subst; auto|].
  destruct (f m s) as [[[u|e|] s1]|] eqn:F; inversion E; subst; [|eapply H; [left; reflexivity|exact F|discriminate]|congruence].
  eapply R_trans; [eapply H; [left; reflexivity|exact F|discriminate]|]. apply IH; auto.
  intros; eapply H; [right|..]; eauto.
Qed.
Lemma try_step stop ms fin s r s' :
  (forall m s r s', In m ms -> f m s = Some (r, s') -> r <> Panic -> R s s') ->
  try_loop stop f ms fin s = Some (r, s') -> r <> Panic -> R s s'.
Proof.
  intros H; revert s; induction ms as [|m ms IH]; cbn; intros s E N; [inversion E; subst; auto|].
  destruct (f m s) as [[[u|e|] s1]|] eqn:F; [| |inversion E; subst; congruence|discriminate].
  - inversion E; subst. eapply H; [left; reflexivity|exact F|discriminate].
  - destruct (stop e); [inversion E; subst; eapply H; [left; reflexivity|exact F|discriminate]|].
    eapply R_trans; [eapply H; [left; reflexivity|exact F|discriminate]|]. apply IH; auto.
    intros; eapply H; [right|..]; eauto.
Qed.
Lemma occur_step (g : St -> option (res unit * St)) n up count s r s' :
  (forall s r s', g s = Some (r, s') -> r <> Panic -> R s s') ->
  occur_loop n g up count s = Some (r, s') -> r <> Panic -> R s s'.
Proof.
  intros H; revert count s; induction n as [|n IH]; cbn; intros count s E N; [discriminate|].
  destruct (g s) as [[[u|e|] s1]|] eqn:F; [| |inversion E; subst; congruence|discriminate].
  - assert (R s s1) by (eapply H; [exact F|discriminate]).
    destruct (N.leb up (count + 1)); [inversion E; subst; auto|]. eauto.
  - assert (R s s1) by (eapply H; [exact F|discriminate]).
    destruct (is_mismatch e); inversion E; subst; auto.
Qed.
End Loops.

Section Inv.
Variable X : ext.
Context {C : Type}.
Variable lookup : C -> text -> list node -> res (node * C).
(** [Q]: nodes used as array members; [T]: nodes elements are checked against. *)
Variables Q T : C -> node -> Prop.
Variable L : value -> Prop.

Definition accepted (x : value) : Prop :=
  exists c nd n, T c nd /\ validate X lookup n x nd c = Some (Ok tt).

Hypothesis Q_rule : forall c name args nd' c', Q c (NRule name args) ->
  lookup c name args = Ok (nd', c') -> Q c' nd'.
Hypothesis Q_unwrap : forall c name args ms c' m, Q c (NUnwrap name args) ->
  lookup c name args = Ok (NArray ms, c') -> In m ms -> Q c' m.
Hypothesis Q_occur : forall c lim m, Q c (NOccur lim m) -> Q c m.
Hypothesis Q_choice : forall c os m, Q c (NChoice os) -> In m os -> Q c m.
Hypothesis Q_group : forall c ms m, Q c (NGroup ms) -> In m ms -> Q c m.
Hypothesis Q_kv : forall c k v cut, Q c (NKeyValue k v cut) -> T c v.
Definition plain_member (m : node) : Prop :=
  match m with
  | NRule _ _ | NUnwrap _ _ | NOccur _ _ | NChoice _ | NGroup _ | NKeyValue _ _ _ => False
  | _ => True
  end.
Hypothesis Q_type : forall c m, Q c m -> plain_member m -> T c m.
Hypothesis L_group : forall c ms x, Q c (NGroup ms) -> accepted x -> L x.

Lemma array_value_step n c m w r w' : T c m ->
  validate_array_value X (fun v nd => validate X lookup n v nd c) m w = Some (r, w') ->
  astep accepted L w w'.
Proof.
  unfold validate_array_value, wa_peek_front. intros HT E.
  destruct w as [a s]; cbn in *. destruct a as [|v a]; [inversion E; subst; apply astep_refl|].
  destruct (validate X lookup n v m c) as [[[]|e|]|] eqn:V; inversion E; subst; try apply astep_refl.
  exists [v]. split; [|split].
  - constructor; auto. exists c, m, n; auto.
  - destruct s; cbn in *; inversion E; subst; cbn; apply lsub_refl.
  - destruct s; cbn in *; inversion E; subst; cbn; auto.
Qed.

Theorem array_step n : forall c m w r w', Q c m ->
  validate_array_member X lookup n m w c = Some (r, w') -> r <> Panic -> astep accepted L w w'.
Proof.
  induction n as [|n IH]; intros c m w r w' HQ E N; [discriminate|].
  rewrite validate_array_member_S in E.
  destruct m; try (eapply array_value_step; [|exact E]; apply Q_type; cbn; auto; fail).
  - destruct (lookup c name args) as [[nd' c']|e|] eqn:Lk; try (inversion E; subst; apply astep_refl).
    eapply IH; [|exact E|exact N]. eauto.
  - eapply (try_step (astep accepted L) (astep_refl _ _) (astep_trans _ _)); [|exact E|exact N].
    intros m s r0 s' Hm. apply IH. eauto.
  - unfold validate_array_group in E.
    destruct (seq_loop _ members (wa_snapshot w)) as [[r1 w1]|] eqn:S; [|discriminate].
    assert (A : r1 <> Panic -> astep accepted L (wa_snapshot w) w1).
    { eapply (seq_step (astep accepted L) (astep_refl _ _) (astep_trans _ _)); [|exact S].
      intros m s r0 s' Hm. apply IH. eauto. }
    destruct r1 as [u|e|]; [| |inversion E; subst; congruence];
      (destruct A as (p & Fp & Hp & Sp); [discriminate|]; cbn in Hp, Sp;
       unfold wa_commit, wa_rewind in E; rewrite Sp in E; inversion E; subst; clear E).
    + exists []. split; [auto|split]; cbn; [|rewrite push_nil; auto].
      eapply lsub_app_drop; [|exact Hp]. eapply Forall_impl; [|exact Fp]. intros x Hx; eapply L_group; eauto.
    + exists []. split; [auto|split]; cbn; [|rewrite push_nil; auto]. rewrite rewind_fold. exact Hp.
  - eapply array_value_step; [|exact E]; eauto.
  - unfold validate_array_occur in E. destruct (limits limit) as [lo up].
    destruct (occur_loop n _ up 0 w) as [[r1 w1]|] eqn:S; [|discriminate].
    assert (A : r1 <> Panic -> astep accepted L w w1).
    { eapply (occur_step (astep accepted L) (astep_refl _ _) (astep_trans _ _)); [|exact S].
      intros s r0 s'. apply IH. eauto. }
    destruct r1 as [u|e|]; [destruct (N.ltb u lo)| |]; inversion E; subst; try congruence; apply A; discriminate.
  - destruct (lookup c name args) as [[nd' c']|e|] eqn:Lk; try (inversion E; subst; apply astep_refl).
    unfold validate_array_unwrap in E. destruct nd'; try (inversion E; subst; apply astep_refl).
    eapply (seq_step (astep accepted L) (astep_refl _ _) (astep_trans _ _)); [|exact E|exact N].
    intros m s r0 s' Hm. apply IH. eauto.
Qed.
End Inv.

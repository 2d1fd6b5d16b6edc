(** A decision procedure for a large part of the class [orderly]. *)
From Coq Require Import List Bool ZArith NArith String Lia Arith Permutation.
From Verif Require Import Base Util Data Value Convert Ivt Scalar Validate Fun ValueOrder NoPanic ConvertProofs SpecCtx CtxProofs
  SpecBase SpecPos SpecPeg JudgeProofs PegProofs TameCheck SpecOrderly Orderly.
Import ListNotations.
Open Scope list_scope.

(** * Sets of values *)

(** Rough kinds of values. *)
Definition kind (v : value) : N :=
  match v with
  | VNull => 0 | VBool _ => 1 | VInteger z => if (0 <=? z)%Z then 2 else 3
  | VFloat _ => 4 | VBytes _ => 5 | VText _ => 6 | VArray _ => 7 | VMap _ => 8
  end%N.
Inductive atom := AtAny | AtKind (k : N) | AtLit (v : value).
Definition aset := list atom.
Definition in_atom (v : value) (a : atom) : Prop :=
  match a with AtAny => True | AtKind k => kind v = k | AtLit l => v = l end.
Definition in_set (v : value) (s : aset) : Prop := exists a, In a s /\ in_atom v a.
Definition apart_atoms (a b : atom) : bool :=
  match a, b with
  | AtAny, _ | _, AtAny => false
  | AtKind k, AtKind k' => negb (N.eqb k k')
  | AtKind k, AtLit l | AtLit l, AtKind k => negb (N.eqb k (kind l))
  | AtLit l, AtLit l' => negb (veqb l l')
  end.
Definition apart (s t : aset) : bool := forallb (fun a => forallb (apart_atoms a) t) s.
Lemma apart_atoms_sound a b v : apart_atoms a b = true -> in_atom v a -> in_atom v b -> False.
Proof.
  destruct a, b; cbn; intros H Ha Hb; try discriminate; subst; apply negb_true_iff in H;
    try (apply N.eqb_neq in H; congruence).
  apply veqb_neq in H. congruence.
Qed.
Lemma apart_sound s t v : apart s t = true -> in_set v s -> in_set v t -> False.
Proof.
  intros H (a & Ha & Va) (b & Hb & Vb). unfold apart in H. rewrite forallb_forall in H. specialize (H a Ha).
  rewrite forallb_forall in H. eapply apart_atoms_sound; eauto.
Qed.
Lemma in_app v s t : in_set v (s ++ t) <-> in_set v s \/ in_set v t.
Proof.
  unfold in_set. split.
  - intros (a & H & V). apply in_app_iff in H. destruct H; [left|right]; eauto.
  - intros [(a & H & V)|(a & H & V)]; exists a; rewrite in_app_iff; auto.
Qed.
Lemma in_flat {A} v (f : A -> aset) l x : In x l -> in_set v (f x) -> in_set v (flat_map f l).
Proof. intros H (a & Ha & V). exists a. split; auto. apply in_flat_map. eauto. Qed.

Definition prelude_set (p : prelude) : aset :=
  match p with
  | PAny => [AtAny] | PNil => [AtKind 0] | PBool => [AtKind 1] | PInt => [AtKind 2; AtKind 3] | PUint => [AtKind 2]
  | PNint => [AtKind 3] | PFloat => [AtKind 4] | PTstr => [AtKind 6] | PBstr => [AtKind 5]
  end.
Lemma prelude_set_sound p v : validate_prelude_type p v = Ok tt -> in_set v (prelude_set p).
Proof.
  destruct p, v; cbn; intros H; try discriminate;
    try (eexists; split; [left; reflexivity|]; cbn; auto; fail).
  - destruct (0 <=? z)%Z eqn:E; [exists (AtKind 2)|exists (AtKind 3)]; (split; [cbn; auto|]); cbn; rewrite E; auto.
  - destruct (0 <=? z)%Z eqn:E; [|discriminate]. exists (AtKind 2). split; [left; auto|]. cbn. rewrite E; auto.
  - destruct (z <? 0)%Z eqn:E; [|discriminate]. exists (AtKind 3). split; [left; auto|]. cbn.
    apply Z.ltb_lt in E. destruct (Z.leb_spec 0 z); auto. lia.
Qed.
Definition int_set : aset := [AtKind 2; AtKind 3].
Lemma int_set_in z : in_set (VInteger z) int_set.
Proof. destruct (0 <=? z)%Z eqn:E; [exists (AtKind 2)|exists (AtKind 3)]; (split; [cbn; auto|]); cbn; rewrite E; auto. Qed.

Section Leaves.
Variable X : ext.
Variable lk : lookup_context.
Definition leaf_set (t : node) : aset :=
  match t with
  | NLiteral l => [AtLit (literal_value l)]
  | NPrelude p => prelude_set p
  | NRange _ _ _ => AtKind 4 :: int_set
  | NControl (CtlSize (NPrelude PTstr) _) => [AtKind 6]
  | NControl (CtlSize (NPrelude PBstr) _) => [AtKind 5]
  | NControl (CtlSize _ _) => [AtKind 6; AtKind 5; AtKind 2]
  | NControl (CtlRegexp _) => [AtKind 6]
  | NControl (CtlCbor _) => [AtKind 5]
  | NControl _ => int_set
  | _ => [AtAny]
  end.
Lemma chase_ok {R} (f : node -> res R) t c x : chase X lk f t c = Ok x -> exists nd, f nd = Ok x /\ (nd = t \/ exists n a, t = NRule n a).
Proof.
  destruct (chase_spec X lk f t c) as (n & E). revert t c E. induction n as [|n IH]; intros t c E H; [discriminate|].
  rewrite chase_eq in H. destruct t; try (eexists; split; [exact H|]; auto; fail).
  destruct (lookup_rule lk c name args) as [[t' c']|e|] eqn:Lk; try discriminate. cbn in H.
  cbn in E. rewrite Lk in E. destruct (chase_spec X lk f t' c') as (n' & E').
  assert (chase_rules (lookup_rule lk) n f t' c' = Some (chase X lk f t' c')) as E2.
  { rewrite E. f_equal. rewrite chase_eq, Lk. reflexivity. }
  destruct (IH _ _ E2 H) as (nd & Hn & _). exists nd. split; eauto.
Qed.
Lemma size_kind l v nd : size_target X l v nd = Ok tt -> in_set v [AtKind 6; AtKind 5; AtKind 2] /\
  (nd = NPrelude PTstr -> kind v = 6%N) /\ (nd = NPrelude PBstr -> kind v = 5%N).
Proof.
  unfold size_target. intros H. destruct nd as [| [] | | | | | | | | | | | |]; try discriminate.
  - unfold validate_size_uint in H. destruct (size_bounds _ _) as [[[a b] i]|e|]; try discriminate.
    destruct v; try discriminate. destruct (z <? 0)%Z eqn:E; [discriminate|]. split; [|split; discriminate].
    exists (AtKind 2). split; [cbn; auto|]. cbn. apply Z.ltb_ge in E. destruct (Z.leb_spec 0 z); auto; lia.
  - unfold validate_size_tstr in H. destruct (size_bounds _ _) as [[[a b] i]|e|]; try discriminate.
    destruct v; try discriminate. split; [|split; [auto|discriminate]]. exists (AtKind 6). split; cbn; auto.
  - unfold validate_size_bstr in H. destruct (size_bounds _ _) as [[[a b'] i]|e|]; try discriminate.
    destruct v; try discriminate. split; [|split; [discriminate|auto]]. exists (AtKind 5). split; cbn; auto.
Qed.
Ltac cmp_kind H := match type of H with ?f _ _ _ ?nd = _ => unfold f in H; destruct nd as [| [] | | | | | | | | | | | |]; try discriminate;
  match type of H with ?g _ ?v = _ => unfold g in H; destruct v; try discriminate; apply int_set_in end end.
Lemma leaf_set_sound c t v : leaf t = true -> val X lk v t c = Ok tt -> in_set v (leaf_set t).
Proof.
  intros Lf E. rewrite val_eq in E. destruct t; try discriminate.
  - unfold validate_literal in E. destruct (veqb v (value_of_literal l)) eqn:Q; [|discriminate].
    apply veqb_eq in Q. exists (AtLit v). subst. split; cbn; auto.
  - apply prelude_set_sound; auto.
  - destruct (deref X lk t1 c) as [l1|e|]; [|discriminate|discriminate]. cbn in E. destruct (deref X lk t2 c) as [l2|e|]; [|discriminate|discriminate]. cbn in E.
    unfold range_compare in E. destruct l1, l2; cbn in E; try discriminate; destruct v; try discriminate.
    + destruct (int_set_in z1) as (a & ? & ?). exists a. split; [right|]; auto.
    + exists (AtKind 4). split; [left|]; auto. reflexivity.
  - destruct c0; try discriminate; cbn [control_val] in E.
    + destruct (chase X lk (normalize_size_range X) size c) as [l|e|]; try discriminate. cbn in E.
      apply chase_ok in E. destruct E as (nd & H & Q). destruct (size_kind _ _ _ H) as (K1 & K2 & K3).
      destruct Q as [->|(n & a & ->)]; [|exact K1].
      destruct target as [| [] | | | | | | | | | | | |]; try exact K1; cbn; eexists; (split; [left; reflexivity|]); cbn; auto.
    + destruct (chase X lk _ lt c) as [l|e|]; try discriminate. cbn in E. apply chase_ok in E. destruct E as (nd & H & _). cbn. cmp_kind H.
    + destruct (chase X lk _ le c) as [l|e|]; try discriminate. cbn in E. apply chase_ok in E. destruct E as (nd & H & _). cbn. cmp_kind H.
    + destruct (chase X lk _ gt c) as [l|e|]; try discriminate. cbn in E. apply chase_ok in E. destruct E as (nd & H & _). cbn. cmp_kind H.
    + destruct (chase X lk _ ge c) as [l|e|]; try discriminate. cbn in E. apply chase_ok in E. destruct E as (nd & H & _). cbn. cmp_kind H.
    + unfold validate_control_regexp in E. destruct v; try discriminate. exists (AtKind 6). split; cbn; auto.
Qed.
End Leaves.

(** * Summaries *)
Section Check.
Variable X : ext.
Variable rs : rules.
Notation lk := (basic_context rs).
Notation L := (lookup_rule lk).
Notation means := (means X lk).
Notation is_param := (is_param rs).
Notation good := (good rs).

(** The values a type may describe. *)
Fixpoint atoms (n : nat) (t : node) {struct n} : aset :=
  match n with
  | O => [AtAny]
  | S n' =>
      match t with
      | NRule name _ =>
          if is_param name then [AtAny]
          else match rules_get rs name with Some def => atoms n' (rd_node def) | None => [] end
      | NChoice ts => flat_map (atoms n') ts
      | NGroup ts => flat_map (atoms n') ts
      | NArray _ => [AtKind 7]
      | NMap _ => [AtKind 8]
      | _ => leaf_set t
      end
  end.

(** A member that is always exactly one element. *)
Fixpoint elem (n : nat) (m : node) {struct n} : bool :=
  match n with
  | O => false
  | S n' =>
      match m with
      | NRule name args =>
          forallb (elem n') args &&
          match rules_get rs name with Some def => elem n' (rd_node def) | None => true end
      | NChoice ms => forallb (elem n') ms
      | NUnwrap _ _ | NOccur _ _ | NGroup _ => false
      | _ => true
      end
  end.

(** Of an array member: whether it may be empty, the elements it may start with,
    the elements that may continue it; [None] if one element of look-ahead is not enough. *)
Record summary := Sum { s_null : bool; s_first : aset; s_ext : aset }.
Definition seq_sum (f : node -> option summary) : list node -> option summary :=
  fix go ms :=
  match ms with
  | [] => Some (Sum true [] [])
  | m :: ms' =>
      match f m, go ms' with
      | Some s1, Some s2 =>
          if apart (s_ext s1) (s_first s2)
          then Some (Sum (s_null s1 && s_null s2)
                 (s_first s1 ++ if s_null s1 then s_first s2 else [])
                 (s_ext s2 ++ if s_null s2 then s_ext s1 else []))
          else None
      | _, _ => None
      end
  end.
Definition alt_sum (f : node -> option summary) : list node -> option summary :=
  fix go ms :=
  match ms with
  | [] => Some (Sum false [] [])
  | m :: ms' =>
      match f m, go ms' with
      | Some s1, Some s2 =>
          match ms' with
          | [] => Some s1
          | _ =>
              if negb (s_null s1) && apart (s_first s1) (s_first s2)
              then Some (Sum (s_null s2) (s_first s1 ++ s_first s2) (s_ext s1 ++ s_ext s2 ++ if s_null s2 then s_first s1 else []))
              else None
          end
      | _, _ => None
      end
  end.
Fixpoint summ (n : nat) (m : node) {struct n} : option summary :=
  match n with
  | O => None
  | S n' =>
      match m with
      | NRule name args =>
          if negb (forallb (elem n') args) then None
          else if is_param name then
            match rules_get rs name with Some _ => None | None => Some (Sum false [AtAny] []) end
          else match rules_get rs name with Some def => summ n' (rd_node def) | None => Some (Sum false [] []) end
      | NChoice ms => alt_sum (summ n') ms
      | NGroup ms => seq_sum (summ n') ms
      | NUnwrap name args =>
          if negb (forallb (elem n') args) || is_param name then None
          else match rules_get rs name with
               | Some def => match rd_node def with NArray ms => seq_sum (summ n') ms | _ => Some (Sum false [] []) end
               | None => Some (Sum false [] [])
               end
      | NOccur l m' =>
          match summ n' m' with
          | Some s =>
              if negb (s_null s) && apart (s_ext s) (s_first s)
              then Some (Sum (N.eqb (fst (bounds l)) 0) (s_first s)
                     (s_ext s ++ if N.eqb (fst (bounds l)) (snd (bounds l)) then [] else s_first s))
              else None
          | None => None
          end
      | NKeyValue _ t _ => Some (Sum false (atoms n' t) [])
      | _ => Some (Sum false (atoms n' m) [])
      end
  end.

(** ** Soundness *)
Definition single (p : ctx) (a : node) : Prop := forall l, means p a (AList l) -> exists v, l = [v].
(** Scopes in which parameters stand for single elements. *)
Notation fine := (good (fun p a => single p a)).

Notation triv := (good (fun _ _ => True)).
Lemma good_triv Q c : good Q c -> triv c.
Proof. induction 1 as [d|m p d G IH H]; constructor; auto. intros k a E. split; auto. eapply H; eauto. Qed.
Lemma triv_lookup c name args nd' c' : triv c -> L c name args = Ok (nd', c') ->
  triv c' /\ (is_param name = true \/ exists def, rules_get rs name = Some def /\ nd' = rd_node def).
Proof.
  intros G E. destruct (good_lookup rs _ _ _ _ _ _ G E (fun _ _ => I)) as [(Ip & _ & G' & _)|(def & R & -> & G')]; split; auto.
  - left. apply is_param_in; auto.
  - right; eauto.
Qed.

Lemma atoms_sound n : forall c t v, triv c -> means c t (AValue v) -> in_set v (atoms n t).
Proof.
  assert (A : forall v, in_set v [AtAny]) by (intros v; exists AtAny; split; cbn; auto).
  induction n as [|n IH]; intros c t v G M; cbn [atoms]; [apply A|].
  inversion M; subst; cbn [atoms].
  - match goal with J : judges _ _ _ _ _ _ |- _ => pose proof (judges_leaf _ _ _ _ _ _ J) as Lf; apply judges_ok in J end.
    destruct t; try discriminate; try (eapply leaf_set_sound; eauto; fail).
  - destruct (is_param name) eqn:Ip; [apply A|].
    destruct (triv_lookup _ _ _ _ _ G H) as (G' & [Q|(def & R & ->)]); [congruence|]. rewrite R. eapply IH; eauto.
  - eapply in_flat; eauto.
  - eapply in_flat; [left; reflexivity|eauto].
  - exists (AtKind 7). split; cbn; auto.
  - exists (AtKind 8). split; cbn; auto.
  - exists (AtKind 5). split; cbn; auto.
  - apply A.
  - apply A.
Qed.

Lemma args_single n c args : (forall c m, fine c -> elem n m = true -> single c m) -> fine c -> forallb (elem n) args = true ->
  forall a, In a args -> single c a.
Proof. intros IH G F a Ha. rewrite forallb_forall in F. apply IH; auto. Qed.
Lemma elem_sound n : forall c m, fine c -> elem n m = true -> single c m.
Proof.
  induction n as [|n IH]; intros c m G E l M; [discriminate|]. cbn [elem] in E.
  inversion M; subst; try discriminate; try (eexists; reflexivity).
  - apply andb_true_iff in E. destruct E as [F E].
    destruct (good_lookup rs _ _ _ _ _ _ G H (args_single n c args IH G F)) as [(_ & _ & _ & Q)|(def & R & -> & G')].
    + apply Q; auto.
    + rewrite R in E. eapply IH; eauto.
  - rewrite forallb_forall in E. eapply IH; eauto.
Qed.
Lemma fine_rule n c name args nd' c' : fine c -> forallb (elem n) args = true -> is_param name = false ->
  L c name args = Ok (nd', c') -> exists def, rules_get rs name = Some def /\ nd' = rd_node def /\ fine c'.
Proof.
  intros G F Np E. destruct (good_lookup rs _ _ _ _ _ _ G E (args_single n c args (elem_sound n) G F)) as [(Ip & _)|?]; auto.
  apply is_param_in in Ip. congruence.
Qed.

(** What a summary says. *)
Definition says (c : ctx) (m : node) (s : summary) : Prop :=
  (means c m (AList []) -> s_null s = true) /\
  (forall v, begins X lk c m v -> in_set v (s_first s)) /\
  (forall v, extends X lk c m v -> in_set v (s_ext s)).

Lemma group_cons_inv c m ms a : means c (NGroup (m :: ms)) (AList a) ->
  exists a1 a2, a = a1 ++ a2 /\ means c m (AList a1) /\ means c (NGroup ms) (AList a2).
Proof.
  intros M. apply means_group_inv_list in M. destruct M as (ps & -> & F). inversion F as [|? p ? ps' H F']; subst.
  exists p, (List.concat ps'). split; auto. split; auto. apply mean_group; auto.
Qed.
Lemma group_nil_inv c a : means c (NGroup []) (AList a) -> a = [].
Proof. intros M. apply means_group_inv_list in M. destruct M as (ps & -> & F). inversion F; auto. Qed.

(** Two prefixes of one list. *)
Lemma prefixes {A} (x z x' z' : list A) : x ++ x' = z ++ z' ->
  (x = z /\ x' = z') \/ (exists w t, z = x ++ w :: t /\ x' = w :: t ++ z') \/ (exists w t, x = z ++ w :: t /\ z' = w :: t ++ x').
Proof.
  revert z. induction x as [|a x IH]; intros z E; cbn in E.
  - destruct z as [|w t]; [left; auto|]. right; left. exists w, t. auto.
  - destruct z as [|b z]; cbn in E.
    + right; right. exists a, x. auto.
    + inversion E; subst. destruct (IH _ H1) as [[-> ->]|[(w & t & -> & ->)|(w & t & -> & ->)]]; [left; auto|right; left|right; right]; exists w, t; auto.
Qed.

Lemma seq_says f c : forall ms s, (forall m s, In m ms -> f m = Some s -> says c m s) -> seq_sum f ms = Some s ->
  says c (NGroup ms) s /\ in_order X lk c ms.
Proof.
  induction ms as [|m ms IH]; intros s H E; cbn in E.
  - inversion E; subst. split; [|intros [|? ?] m post v Q; discriminate]. split; [|split]; cbn; auto.
    + intros v (a & M). apply group_nil_inv in M. discriminate.
    + intros v (a & b & _ & M). apply group_nil_inv in M. destruct a; discriminate.
  - destruct (f m) as [s1|] eqn:F; [|discriminate]. destruct (seq_sum f ms) as [s2|] eqn:F2; [|discriminate].
    destruct (apart (s_ext s1) (s_first s2)) eqn:Ap; [|discriminate]. inversion E; subst; clear E.
    destruct (H m s1 (or_introl eq_refl) F) as (N1 & B1 & X1).
    destruct (IH s2 (fun m s Hm => H m s (or_intror Hm)) eq_refl) as ((N2 & B2 & X2) & Io).
    assert (D : forall v, extends X lk c m v -> ~ begins X lk c (NGroup ms) v).
    { intros v Hv Bv. eapply apart_sound; eauto. }
    split.
    + split; [|split]; cbn [s_null s_first s_ext].
      * intros M. apply group_cons_inv in M. destruct M as (a1 & a2 & Q & M1 & M2). symmetry in Q. apply app_eq_nil in Q. destruct Q; subst.
        rewrite N1, N2 by auto. reflexivity.
      * intros v (a & M). apply group_cons_inv in M. destruct M as (a1 & a2 & Q & M1 & M2). apply in_app.
        destruct a1 as [|w a1].
        -- right. rewrite N1 by auto. apply B2. exists a. cbn in Q. subst; auto.
        -- left. inversion Q; subst. apply B1. exists a1; auto.
      * intros v (x & y & Mx & Mz). apply group_cons_inv in Mx, Mz.
        destruct Mx as (x1 & x2 & -> & Mx1 & Mx2), Mz as (z1 & z2 & Qz & Mz1 & Mz2). rewrite <- app_assoc in Qz. apply in_app.
        destruct (prefixes _ _ _ _ Qz) as [[-> Q]|[(w & t & -> & Q)|(w & t & -> & Q)]].
        -- left. apply X2. exists x2, y. rewrite Q. auto.
        -- destruct x2 as [|w' x2]; cbn in Q; inversion Q; subst.
           ++ right. rewrite N2 by auto. apply X1. exists x1, t. auto.
           ++ destruct (D w); [exists x1, t; auto|exists x2; auto].
        -- destruct (D w); [exists z1, t; auto|]. subst z2. eexists. exact Mz2.
    + intros [|m0 pre] m' post v Q Ev.
      * inversion Q; subst. apply D; auto.
      * inversion Q; subst. eapply Io; eauto.
Qed.

Lemma choice_cons_inv c m ms a : means c (NChoice (m :: ms)) (AList a) -> means c m (AList a) \/ means c (NChoice ms) (AList a).
Proof.
  intros M. inversion M; subst; try discriminate. match goal with H : In _ _ |- _ => destruct H as [->|H] end; auto.
  right. eapply mean_choice; eauto.
Qed.
Lemma choice_nil_inv c a : ~ means c (NChoice []) (AList a).
Proof. intros M. inversion M; subst; try discriminate. contradiction. Qed.
Lemma alt_says f c : forall ms s, (forall m s, In m ms -> f m = Some s -> says c m s) -> alt_sum f ms = Some s ->
  says c (NChoice ms) s /\ told_apart X lk c ms.
Proof.
  induction ms as [|m ms IH]; intros s H E; cbn in E.
  - inversion E; subst. split; [|intros [|? ?] m post m' Q; discriminate]. split; [|split]; cbn.
    + intros M. destruct (choice_nil_inv _ _ M).
    + intros v (a & M). destruct (choice_nil_inv _ _ M).
    + intros v (a & b & M & _). destruct (choice_nil_inv _ _ M).
  - destruct (f m) as [s1|] eqn:F; [|discriminate]. destruct (alt_sum f ms) as [s2|] eqn:F2; [|discriminate].
    destruct (H m s1 (or_introl eq_refl) F) as (N1 & B1 & X1).
    destruct (IH s2 (fun m s Hm => H m s (or_intror Hm)) eq_refl) as ((N2 & B2 & X2) & Ta).
    destruct ms as [|m2 ms].
    + inversion E; subst. split.
      * assert (O1 : forall a, means c (NChoice [m]) (AList a) -> means c m (AList a)).
        { intros a M. apply choice_cons_inv in M. destruct M as [|M]; auto. destruct (choice_nil_inv _ _ M). }
        split; [|split]; auto.
        -- intros v (a & M). apply B1. exists a; auto.
        -- intros v (a & b & Ma & Mb). apply X1. exists a, b; auto.
      * intros [|m0 pre] m' post m'' Q Hin; inversion Q; subst; [contradiction|]. destruct pre; discriminate.
    + remember (m2 :: ms) as ms2 eqn:Em. clear Em.
      destruct (negb (s_null s1) && apart (s_first s1) (s_first s2)) eqn:Ap; [|discriminate]. apply andb_true_iff in Ap. destruct Ap as [Nn Ap].
      apply negb_true_iff in Nn. inversion E; subst; clear E.
      assert (Ne : ~ means c m (AList [])) by (intros M; apply N1 in M; congruence).
      assert (D : forall v, begins X lk c m v -> ~ begins X lk c (NChoice ms2) v).
      { intros v Hv Bv. eapply apart_sound; eauto. }
      split.
      * split; [|split]; cbn [s_null s_first s_ext].
        -- intros M. apply choice_cons_inv in M. destruct M as [M|M]; [contradiction|auto].
        -- intros v (a & M). apply choice_cons_inv in M. apply in_app. destruct M; [left; apply B1|right; apply B2]; exists a; auto.
        -- intros v (a & b & Ma & Mb). apply choice_cons_inv in Ma, Mb. rewrite !in_app.
           destruct Ma as [Ma|Ma], Mb as [Mb|Mb].
           ++ left. apply X1. exists a, b; auto.
           ++ destruct a as [|w a]; [contradiction|]. destruct (D w); [exists a; auto|exists (a ++ v :: b); auto].
           ++ destruct a as [|w a]; [|destruct (D w); [exists (a ++ v :: b); auto|exists a; auto]].
              right; right. rewrite N2 by auto. apply B1. exists b; auto.
           ++ right; left. apply X2. exists a, b; auto.
      * intros [|m0 pre] m' post m'' Q Hin; inversion Q; subst.
        -- split; auto. intros v Bv (a & Ma). apply (D v Bv). exists a. eapply mean_choice; eauto.
        -- eapply Ta; eauto.
Qed.

Lemma occur_inv_list c l m a : means c (NOccur l m) (AList a) -> exists parts, a = List.concat parts /\
  (fst (bounds l) <= N.of_nat (List.length parts) <= snd (bounds l))%N /\ Forall (fun p => means c m (AList p)) parts.
Proof. intros M; inversion M; subst; try discriminate; eauto. Qed.
Lemma rep_extends c m : repeatable X lk c m -> forall ps qs v y,
  Forall (fun p => means c m (AList p)) ps -> Forall (fun p => means c m (AList p)) qs ->
  List.concat ps ++ v :: y = List.concat qs ->
  extends X lk c m v \/ (List.length ps < List.length qs /\ begins X lk c m v).
Proof.
  intros [Ne Re]. induction ps as [|p ps IH]; intros qs v y Fp Fq E.
  - cbn in E. destruct qs as [|q qs]; [discriminate|]. inversion Fq as [|? ? Mq Fq']; subst. destruct q as [|w q]; [contradiction|].
    inversion E; subst. right. split; [cbn; lia|]. exists q; auto.
  - inversion Fp as [|? ? Mp Fp']; subst. cbn in E. rewrite <- app_assoc in E.
    destruct qs as [|q qs]; [cbn in E; destruct p; [contradiction|discriminate]|]. inversion Fq as [|? ? Mq Fq']; subst. cbn in E.
    destruct (prefixes _ _ _ _ E) as [[-> Q]|[(w & t & -> & Q)|(w & t & -> & Q)]].
    + destruct (IH qs v y Fp' Fq' Q) as [|[? ?]]; auto. right. split; auto. cbn; lia.
    + destruct ps as [|p2 ps]; cbn in Q; inversion Q; subst.
      * left. exists p, t. auto.
      * inversion Fp' as [|? ? Mp2 _]; subst. destruct p2 as [|w2 p2]; [contradiction|]. cbn in Q. inversion Q; subst.
        destruct (Re w); [exists p, t; auto|exists p2; auto].
    + destruct qs as [|q2 qs]; cbn in Q; [discriminate|]. inversion Fq' as [|? ? Mq2 _]; subst. destruct q2 as [|w2 q2]; [contradiction|].
      cbn in Q. inversion Q; subst. destruct (Re w); [exists q, t; auto|exists q2; auto].
Qed.

Lemma occur_says c l m s : says c m s -> negb (s_null s) && apart (s_ext s) (s_first s) = true ->
  repeatable X lk c m /\
  says c (NOccur l m) (Sum (N.eqb (fst (bounds l)) 0) (s_first s)
                     (s_ext s ++ if N.eqb (fst (bounds l)) (snd (bounds l)) then [] else s_first s)).
Proof.
  intros (N1 & B1 & X1) Ap. apply andb_true_iff in Ap. destruct Ap as [Nn Ap]. apply negb_true_iff in Nn.
  assert (Rp : repeatable X lk c m).
  { split; [intros M; apply N1 in M; congruence|]. intros v Ev Bv. eapply apart_sound; eauto. }
  split; auto. pose proof Rp as [Ne _]. split; [|split]; cbn [s_null s_first s_ext].
  - intros M. apply occur_inv_list in M. destruct M as (ps & Q & Lm & F). apply N.eqb_eq.
    destruct ps as [|p ps]; [cbn in Lm; lia|]. cbn in Q. symmetry in Q. apply app_eq_nil in Q. destruct Q; subst. inversion F; subst. contradiction.
  - intros v (a & M). apply occur_inv_list in M. destruct M as (ps & Q & Lm & F).
    destruct ps as [|p ps]; [discriminate|]. inversion F; subst. destruct p as [|w p]; [contradiction|]. inversion Q; subst. apply B1. exists p; auto.
  - intros v (a & b & Ma & Mb). apply occur_inv_list in Ma, Mb. destruct Ma as (ps & -> & Lp & Fp), Mb as (qs & Q & Lq & Fq).
    apply in_app. destruct (rep_extends c m Rp ps qs v b Fp Fq Q) as [Ev|[Lt Bv]]; [left; auto|].
    right. destruct (N.eqb_spec (fst (bounds l)) (snd (bounds l))); [lia|]. auto.
Qed.

Lemma summ_sound n : forall c m s, fine c -> summ n m = Some s -> says c m s.
Proof.
  induction n as [|n IH]; intros c m s G E; [discriminate|]. cbn [summ] in E.
  assert (Emp : (forall a, ~ means c m (AList a)) -> says c m (Sum false [] [])).
  { intros H. split; [|split]; cbn.
    - intros M; destruct (H _ M).
    - intros v (a & M); destruct (H _ M).
    - intros v (a & b & M & _); destruct (H _ M). }
  assert (El : forall t, (forall a, means c m (AList a) -> exists v, a = [v] /\ (means c t (AValue v) \/ False)) ->
            says c m (Sum false (atoms n t) [])).
  { intros t H. split; [|split]; cbn.
    - intros M; destruct (H _ M) as (v & Q & _); discriminate.
    - intros v (a & M). destruct (H _ M) as (v' & Q & [M'|[]]). inversion Q; subst. eapply atoms_sound; eauto. eapply good_triv; eauto.
    - intros v (a & b & Ma & Mb). destruct (H _ Ma) as (v1 & -> & _), (H _ Mb) as (v2 & Q & _). inversion Q. }
  assert (El1 : match m with NKeyValue _ _ _ => False | _ => element_of m = Some m end -> says c m (Sum false (atoms n m) [])).
  { intros Et. apply El. intros a M. destruct m; try discriminate; try contradiction; clear Et; inversion M; subst; try discriminate;
      match goal with H : element_of _ = Some _ |- _ => inversion H; subst end; (eexists; split; [reflexivity|left; assumption]). }
  destruct m; try (inversion E; subst; apply El1; reflexivity).
  - destruct (forallb (elem n) args) eqn:F; [|discriminate]. cbn in E.
    destruct (is_param name) eqn:Ip.
    + destruct (rules_get rs name) as [def|] eqn:R; [discriminate|]. inversion E; subst.
      assert (S1 : single c (NRule name args)).
      { intros l M. inversion M; subst; try discriminate.
        match goal with H : L _ _ _ = Ok _ |- _ => rename H into Lk end.
        destruct (good_lookup rs _ _ _ _ _ _ G Lk (args_single n c args (elem_sound n) G F)) as [(_ & _ & _ & Q)|(def & R' & _)]; [|congruence].
        apply Q; auto. }
      split; [|split]; cbn.
      * intros M. destruct (S1 _ M); discriminate.
      * intros v _. exists AtAny. split; cbn; auto.
      * intros v (a & b & Ma & Mb). destruct (S1 _ Ma) as (? & ->), (S1 _ Mb) as (? & Q). inversion Q.
    + assert (Inv : forall a, means c (NRule name args) (AList a) -> exists def c', rules_get rs name = Some def /\ fine c' /\
                L c name args = Ok (rd_node def, c') /\ means c' (rd_node def) (AList a)).
      { intros a M. inversion M; subst; try discriminate.
        match goal with H : L _ _ _ = Ok _ |- _ => rename H into Lk end. destruct (fine_rule n _ _ _ _ _ G F Ip Lk) as (def & R & -> & G'). eauto 8. }
      destruct (rules_get rs name) as [def|] eqn:R.
      * split; [|split].
        -- intros M. destruct (Inv _ M) as (d & c' & [= <-] & G' & _ & M'). eapply (IH c'); eauto.
        -- intros v (a & M). destruct (Inv _ M) as (d & c' & [= <-] & G' & _ & M'). eapply (IH c'); eauto. exists a; auto.
        -- intros v (a & b & Ma & Mb). destruct (Inv _ Ma) as (d & c' & [= <-] & G' & Lk & Ma'), (Inv _ Mb) as (d & c2 & [= <-] & _ & Lk2 & Mb').
           rewrite Lk in Lk2. inversion Lk2; subst. eapply (IH c2); eauto. exists a, b; auto.
      * inversion E; subst. apply Emp. intros a M. destruct (Inv _ M) as (d & c' & Q & _). discriminate.
  - eapply (alt_says (summ n)); eauto.
  - eapply (seq_says (summ n)); eauto.
  - inversion E; subst. apply El. intros a M. inversion M; subst; try discriminate.
    match goal with H : element_of _ = Some _ |- _ => inversion H; subst end. eauto.
  - destruct (summ n m) as [s'|] eqn:S; [|discriminate]. destruct (negb (s_null s') && apart (s_ext s') (s_first s')) eqn:Ap; [|discriminate].
    inversion E; subst. apply occur_says; eauto.
  - destruct (forallb (elem n) args) eqn:F; [|discriminate]. destruct (is_param name) eqn:Ip; [discriminate|]. cbn in E.
    assert (Inv : forall a, means c (NUnwrap name args) (AList a) -> exists def ms c', rules_get rs name = Some def /\ rd_node def = NArray ms /\ fine c' /\
                L c name args = Ok (NArray ms, c') /\ means c' (NGroup ms) (AList a)).
    { intros a M. inversion M; subst; try discriminate.
      match goal with H : L _ _ _ = Ok _ |- _ => rename H into Lk end.
      destruct (fine_rule n _ _ _ _ _ G F Ip Lk) as (def & R & Ed & G').
      exists def, ms, c'. repeat split; auto. apply mean_group; auto. }
    destruct (rules_get rs name) as [def|] eqn:R.
    + destruct (rd_node def) as [| | | | |ms| | | | | | | |] eqn:Ed;
        try (inversion E; subst; apply Emp; intros a M; destruct (Inv _ M) as (d & ms & c' & [= <-] & Q & _); congruence).
      split; [|split].
      * intros M. destruct (Inv _ M) as (d & ms' & c' & [= <-] & Q & G' & _ & M'). rewrite Ed in Q; inversion Q; subst.
        eapply (seq_says (summ n) c'); eauto.
      * intros v (a & M). destruct (Inv _ M) as (d & ms' & c' & [= <-] & Q & G' & _ & M'). rewrite Ed in Q; inversion Q; subst.
        destruct (seq_says (summ n) c' ms' s ltac:(intros; eapply IH; eauto) E) as ((_ & B & _) & _). apply B. exists a; auto.
      * intros v (a & b & Ma & Mb). destruct (Inv _ Ma) as (d & ms' & c' & [= <-] & Q & G' & Lk & Ma'), (Inv _ Mb) as (d & ms2 & c2 & [= <-] & _ & _ & Lk2 & Mb').
        rewrite Lk in Lk2. inversion Lk2; subst. rewrite Ed in Q; inversion Q; subst.
        destruct (seq_says (summ n) c2 ms2 s ltac:(intros; eapply IH; eauto) E) as ((_ & _ & B) & _). apply B. exists a, b; auto.
    + inversion E; subst. apply Emp. intros a M. destruct (Inv _ M) as (d & ms & c' & Q & _). discriminate.
Qed.

(** ** Maps *)

(** The keys a member may take. *)
Fixpoint W (n : nat) (m : node) {struct n} : aset :=
  match n with
  | O => [AtAny]
  | S n' =>
      match m with
      | NKeyValue key _ _ => atoms n' key
      | NRule name _ =>
          if is_param name then [AtAny]
          else match rules_get rs name with Some def => W n' (rd_node def) | None => [] end
      | NChoice ms | NGroup ms => flat_map (W n') ms
      | NOccur _ m' => W n' m'
      | NUnwrap name _ =>
          if is_param name then [AtAny]
          else match rules_get rs name with
               | Some def => match rd_node def with NMap ms => flat_map (W n') ms | _ => [] end
               | None => []
               end
      | NChoiceify _ _ | NChoiceifyInline _ => [AtAny]
      | _ => []
      end
  end.
(** Keys that are in every set of entries a member describes. *)
Fixpoint must (n : nat) (m : node) {struct n} : list value :=
  match n with
  | O => []
  | S n' =>
      match m with
      | NKeyValue key _ _ => match atoms n' key with [AtLit l] => [l] | _ => [] end
      | NRule name _ =>
          if is_param name then []
          else match rules_get rs name with Some def => must n' (rd_node def) | None => [] end
      | NGroup ms => flat_map (must n') ms
      | NOccur l m' => if N.leb 1 (fst (bounds l)) then must n' m' else []
      | NUnwrap name _ =>
          if is_param name then []
          else match rules_get rs name with
               | Some def => match rd_node def with NMap ms => flat_map (must n') ms | _ => [] end
               | None => []
               end
      | _ => []
      end
  end.
(** The member always has an entry. *)
Fixpoint filled (n : nat) (m : node) {struct n} : bool :=
  match n with
  | O => false
  | S n' =>
      match m with
      | NKeyValue _ _ _ => true
      | NRule name _ =>
          if is_param name then false
          else match rules_get rs name with Some def => filled n' (rd_node def) | None => true end
      | NChoice ms => forallb (filled n') ms
      | NGroup ms => existsb (filled n') ms
      | NOccur l m' => N.leb 1 (fst (bounds l)) && filled n' m'
      | _ => false
      end
  end.
Fixpoint cutless_b (n : nat) (m : node) {struct n} : bool :=
  match n with
  | O => false
  | S n' =>
      match m with
      | NKeyValue _ _ cut => negb cut
      | NGroup _ => true
      | NRule name _ =>
          if is_param name then false
          else match rules_get rs name with Some def => cutless_b n' (rd_node def) | None => true end
      | NChoice ms => forallb (cutless_b n') ms
      | NOccur _ m' => cutless_b n' m'
      | _ => false
      end
  end.
Fixpoint entry_b (n : nat) (m : node) {struct n} : bool :=
  match n with
  | O => false
  | S n' =>
      match m with
      | NKeyValue _ _ _ => true
      | NGroup [m'] => entry_b n' m'
      | NRule name _ =>
          if is_param name then false
          else match rules_get rs name with Some def => entry_b n' (rd_node def) | None => true end
      | _ => false
      end
  end.
(** Whatever the member does with the key [k], it claims it. *)
Fixpoint once_b (n : nat) (m : node) (k : value) {struct n} : bool :=
  match n with
  | O => false
  | S n' =>
      match m with
      | NKeyValue (NLiteral l) _ true => veqb k (literal_value l)
      | NRule name _ =>
          if is_param name then false
          else match rules_get rs name with Some def => once_b n' (rd_node def) k | None => true end
      | _ => false
      end
  end.
Fixpoint claimed_b (n : nat) (m : node) (k : value) {struct n} : bool :=
  match n with
  | O => false
  | S n' =>
      match m with
      | NKeyValue (NLiteral l) _ true => veqb k (literal_value l)
      | NRule name _ =>
          if is_param name then false
          else match rules_get rs name with Some def => claimed_b n' (rd_node def) k | None => true end
      | NGroup ms => forallb (fun m => apart (W n' m) [AtLit k] || claimed_b n' m k) ms
      | NUnwrap name _ =>
          if is_param name then false
          else match rules_get rs name with
               | Some def => match rd_node def with
                             | NMap ms => forallb (fun m => apart (W n' m) [AtLit k] || claimed_b n' m k) ms
                             | _ => true
                             end
               | None => true
               end
      | NOccur l m' => N.leb 1 (snd (bounds l)) && once_b n' m' k
      | _ => false
      end
  end.
Fixpoint keys_b (n : nat) (ms : list node) : bool :=
  match ms with
  | [] => true
  | m :: post =>
      forallb (fun a => forallb (apart_atoms a) (flat_map (W n) post) ||
        match a with AtLit l => existsb (veqb l) (must n m) || claimed_b n m l | _ => false end) (W n m) &&
      keys_b n post
  end.
Fixpoint alts_b (n : nat) (ms : list node) : bool :=
  match ms with
  | [] => true
  | m :: post =>
      forallb (fun m' =>
        (filled n m && apart (W n m) (W n m')) ||
        (cutless_b n m && existsb (fun l => forallb (apart_atoms (AtLit l)) (W n m')) (must n m))) post &&
      alts_b n post
  end.

Lemma in_any v : in_set v [AtAny].
Proof. exists AtAny. split; cbn; auto. Qed.
Lemma triv_rule c name args nd' c' : triv c -> is_param name = false -> L c name args = Ok (nd', c') ->
  exists def, rules_get rs name = Some def /\ nd' = rd_node def /\ triv c'.
Proof. intros G Np E. destruct (triv_lookup _ _ _ _ _ G E) as (G' & [Q|(def & R & ->)]); [congruence|eauto]. Qed.
Lemma wants_W n : forall c m k, triv c -> wants X lk c m k -> in_set k (W n m).
Proof.
  induction n as [|n IH]; intros c m k G H; cbn [W]; [apply in_any|].
  inversion H; subst.
  - eapply atoms_sound; eauto.
  - destruct (is_param name) eqn:Ip; [apply in_any|].
    destruct (triv_rule _ _ _ _ _ G Ip H0) as (def & R & -> & G'). rewrite R. eauto.
  - eapply in_flat; eauto.
  - eapply in_flat; eauto.
  - eauto.
  - destruct (is_param name) eqn:Ip; [apply in_any|].
    destruct (triv_rule _ _ _ _ _ G Ip H0) as (def & R & Ed & G'). rewrite R, <- Ed. eapply in_flat; eauto.
Qed.
Lemma keys_concat k ps : In k (keys (List.concat ps)) <-> exists p, In p ps /\ In k (keys p).
Proof.
  induction ps as [|p ps IH]; cbn.
  - split; [tauto|]. intros (p & [] & _).
  - rewrite keys_app, in_app_iff, IH. split.
    + intros [H|(q & Hq & H)]; eauto.
    + intros (q & [->|Hq] & H); eauto.
Qed.
Lemma forall2_in_r {A B} (R : A -> B -> Prop) l l' y : Forall2 R l l' -> In y l' -> exists x, In x l /\ R x y.
Proof. induction 1; cbn; intros []; subst; eauto. destruct IHForall2 as (x0 & ? & ?); eauto. Qed.
Lemma forall2_in_l {A B} (R : A -> B -> Prop) l l' x : Forall2 R l l' -> In x l -> exists y, In y l' /\ R x y.
Proof. induction 1; cbn; intros []; subst; eauto. destruct IHForall2 as (y0 & ? & ?); eauto. Qed.

Lemma takes_W n : forall c m p k, triv c -> means c m (ASet p) -> In k (keys p) -> in_set k (W n m).
Proof.
  induction n as [|n IH]; intros c m p k G M Hk; cbn [W]; [apply in_any|].
  assert (F : forall c ms parts es, triv c -> Forall2 (fun m p => means c m (ASet p)) ms parts -> Permutation es (List.concat parts) ->
            In k (keys es) -> in_set k (flat_map (W n) ms)).
  { intros c1 ms parts es G1 F2 P Hin. eapply keys_in_perm in Hin; eauto. apply keys_concat in Hin. destruct Hin as (q & Hq & Hin).
    destruct (forall2_in_r _ _ _ _ F2 Hq) as (m' & Hm & Mq). eapply in_flat; eauto. }
  inversion M; subst; try discriminate; try (apply in_any).
  - destruct (is_param name) eqn:Ip; [apply in_any|].
    match goal with H : L _ _ _ = Ok _ |- _ => rename H into Lk end.
    destruct (triv_rule _ _ _ _ _ G Ip Lk) as (def & R & -> & G'). rewrite R. eauto.
  - eapply in_flat; eauto.
  - destruct Hk as [<-|[]]. eapply atoms_sound; eauto.
  - eapply F; eauto.
  - destruct (is_param name) eqn:Ip; [apply in_any|].
    match goal with H : L _ _ _ = Ok _ |- _ => rename H into Lk end.
    destruct (triv_rule _ _ _ _ _ G Ip Lk) as (def & R & Ed & G'). rewrite R, <- Ed. eapply F; eauto.
  - eapply keys_in_perm in Hk; eauto. apply keys_concat in Hk. destruct Hk as (q & Hq & Hk).
    match goal with H : Forall _ parts |- _ => rewrite Forall_forall in H; apply H in Hq end. eauto.
Qed.
Lemma must_takes n : forall c m p l, triv c -> means c m (ASet p) -> In l (must n m) -> In l (keys p).
Proof.
  induction n as [|n IH]; intros c m p l G M Hl; cbn [must] in Hl; [contradiction|].
  assert (F : forall c ms parts es, triv c -> Forall2 (fun m p => means c m (ASet p)) ms parts -> Permutation es (List.concat parts) ->
            In l (flat_map (must n) ms) -> In l (keys es)).
  { intros c1 ms parts es G1 F2 P Hin. apply in_flat_map in Hin. destruct Hin as (m' & Hm & Hin).
    destruct (forall2_in_l _ _ _ _ F2 Hm) as (q & Hq & Mq). eapply keys_in_perm; [symmetry; eauto|]. apply keys_concat. eauto. }
  inversion M; subst; try contradiction.
  - destruct (is_param name) eqn:Ip; [contradiction|].
    match goal with H : L _ _ _ = Ok _ |- _ => rename H into Lk end.
    destruct (triv_rule _ _ _ _ _ G Ip Lk) as (def & R & -> & G'). rewrite R in Hl. eauto.
  - match goal with H : means _ key _ |- _ => pose proof (atoms_sound n _ _ _ G H) as (a & Ha & Hv) end. destruct (atoms n key) as [|[| |w] [|]]; try contradiction.
    destruct Ha as [<-|[]]. destruct Hl as [<-|[]]. cbn in Hv. left. exact Hv.
  - eapply F; eauto.
  - destruct (is_param name) eqn:Ip; [contradiction|].
    match goal with H : L _ _ _ = Ok _ |- _ => rename H into Lk end.
    destruct (triv_rule _ _ _ _ _ G Ip Lk) as (def & R & Ed & G'). rewrite R, <- Ed in Hl. eapply F; eauto.
  - destruct (N.leb 1 (fst (bounds l0))) eqn:Lo; [|contradiction]. apply N.leb_le in Lo.
    destruct parts as [|q parts]; [cbn in *; lia|]. eapply keys_in_perm; [symmetry; eauto|]. apply keys_concat. exists q. split; [left; auto|].
    match goal with H : Forall _ (_ :: _) |- _ => inversion H; subst end. eauto.
Qed.
Lemma filled_takes n : forall c m p, triv c -> filled n m = true -> means c m (ASet p) -> p <> [].
Proof.
  induction n as [|n IH]; intros c m p G Fm M; cbn [filled] in Fm; [discriminate|].
  inversion M; subst; try discriminate.
  - destruct (is_param name) eqn:Ip; [discriminate|].
    match goal with H : L _ _ _ = Ok _ |- _ => rename H into Lk end.
    destruct (triv_rule _ _ _ _ _ G Ip Lk) as (def & R & -> & G'). rewrite R in Fm. eauto.
  - rewrite forallb_forall in Fm. eauto.
  - apply existsb_exists in Fm. destruct Fm as (m' & Hm & Fm).
    match goal with H : Forall2 _ _ _ |- _ => destruct (forall2_in_l _ _ _ _ H Hm) as (q & Hq & Mq) end.
    pose proof (IH _ _ _ G Fm Mq) as Ne. intros ->.
    match goal with H : Permutation _ _ |- _ => apply Permutation_nil in H; rename H into Cc end.
    apply Ne. destruct q as [|x q]; auto. assert (In x (List.concat parts)) as Hx by (apply in_concat; exists (x :: q); cbn; auto).
    rewrite Cc in Hx. contradiction.
  - apply andb_true_iff in Fm. destruct Fm as [Lo Fm]. apply N.leb_le in Lo.
    destruct parts as [|q parts]; [cbn in *; lia|]. intros ->.
    match goal with H : Permutation _ _ |- _ => apply Permutation_nil in H; cbn in H; apply app_eq_nil in H; destruct H as [-> _] end.
    match goal with H : Forall _ (_ :: _) |- _ => inversion H; subst end. eapply IH; eauto.
Qed.
Lemma cutless_sound n : forall c m, triv c -> cutless_b n m = true -> cutless lk c m.
Proof.
  induction n as [|n IH]; intros c m G C; cbn [cutless_b] in C; [discriminate|].
  destruct m; try discriminate.
  - apply cutless_name. intros m' c' E. destruct (is_param name) eqn:Ip; [discriminate|].
    destruct (triv_rule _ _ _ _ _ G Ip E) as (def & R & -> & G'). rewrite R in C. eauto.
  - apply cutless_choice. rewrite forallb_forall in C. eauto.
  - apply cutless_group.
  - apply negb_true_iff in C. subst. apply cutless_entry.
  - apply cutless_occur. eauto.
Qed.
Lemma entry_sound n : forall c m, triv c -> entry_b n m = true -> one_entry lk c m.
Proof.
  induction n as [|n IH]; intros c m G C; cbn [entry_b] in C; [discriminate|].
  destruct m; try discriminate.
  - apply one_entry_name. intros m' c' E. destruct (is_param name) eqn:Ip; [discriminate|].
    destruct (triv_rule _ _ _ _ _ G Ip E) as (def & R & -> & G'). rewrite R in C. eauto.
  - destruct members as [|m [|]]; try discriminate. apply one_entry_group. eauto.
  - apply one_entry_here.
Qed.
Lemma once_sound n : forall c m k, triv c -> once_b n m k = true -> wants X lk c m k -> claims_once lk c m k.
Proof.
  induction n as [|n IH]; intros c m k G C Wk; cbn [once_b] in C; [discriminate|].
  destruct m; try discriminate.
  - destruct (is_param name) eqn:Ip; [discriminate|]. inversion Wk; subst.
    match goal with H : L _ _ _ = Ok _ |- _ => rename H into Lk end.
    destruct (triv_rule _ _ _ _ _ G Ip Lk) as (def & R & -> & G'). rewrite R in C. eapply once_name; eauto.
  - destruct m1; try discriminate. destruct cut; [|discriminate]. apply veqb_eq in C. subst. apply once_entry.
Qed.
Lemma claimed_sound n : forall c m k, triv c -> claimed_b n m k = true -> wants X lk c m k -> claims lk c m k.
Proof.
  induction n as [|n IH]; intros c m k G C Wk; cbn [claimed_b] in C; [discriminate|].
  assert (F : forall c ms m, triv c -> forallb (fun m => apart (W n m) [AtLit k] || claimed_b n m k) ms = true -> In m ms ->
            wants X lk c m k -> claims lk c m k).
  { intros c1 ms m1 G1 F Hm W1. rewrite forallb_forall in F. specialize (F _ Hm). apply orb_true_iff in F. destruct F as [F|F]; eauto.
    exfalso. eapply apart_sound; [exact F|eapply wants_W; eauto|]. exists (AtLit k). split; cbn; auto. }
  destruct m; try discriminate.
  - destruct (is_param name) eqn:Ip; [discriminate|]. inversion Wk; subst.
    match goal with H : L _ _ _ = Ok _ |- _ => rename H into Lk end.
    destruct (triv_rule _ _ _ _ _ G Ip Lk) as (def & R & -> & G'). rewrite R in C. eapply claims_name; eauto.
  - inversion Wk; subst. eapply claims_group; eauto.
  - destruct m1; try discriminate. destruct cut; [|discriminate]. apply veqb_eq in C. subst. apply claims_entry.
  - apply andb_true_iff in C. destruct C as [Lo C]. apply N.leb_le in Lo. inversion Wk; subst. apply claims_occur; auto. eapply once_sound; eauto.
  - destruct (is_param name) eqn:Ip; [discriminate|]. inversion Wk; subst.
    match goal with H : L _ _ _ = Ok _ |- _ => rename H into Lk end.
    destruct (triv_rule _ _ _ _ _ G Ip Lk) as (def & R & Ed & G'). rewrite R, <- Ed in C. eapply claims_unwrap; eauto.
Qed.
Lemma keys_sound n c : triv c -> forall ms, keys_b n ms = true -> keys_in_order X lk c ms.
Proof.
  intros G. induction ms as [|m0 ms IH]; intros C pre m post p p' k Q Mp Mp' Nd Cl Hk Hw; [destruct pre; discriminate|].
  cbn in C. apply andb_true_iff in C. destruct C as [C1 C2].
  destruct pre as [|? pre]; inversion Q; subst; [|eapply (IH C2 pre); eauto].
  destruct (wants_W n _ _ _ G Hw) as (a & Ha & Va). rewrite forallb_forall in C1. specialize (C1 a Ha).
  apply orb_true_iff in C1. destruct C1 as [C1|C1].
  - pose proof (takes_W (S n) _ _ _ _ G Mp' Hk) as (b & Hb & Vb). cbn [W] in Hb. rewrite forallb_forall in C1.
    eapply apart_atoms_sound; eauto.
  - destruct a; try discriminate. cbn in Va. subst v. apply orb_true_iff in C1. destruct C1 as [C1|C1].
    2: { apply (Cl k); auto. eapply claimed_sound; eauto. }
    apply existsb_exists in C1. destruct C1 as (l & Hl & E). apply veqb_eq in E. subst k.
    eapply nodup_app_disjoint; eauto. eapply must_takes; eauto.
Qed.
Lemma alts_sound n c : triv c -> forall ms, alts_b n ms = true -> entries_apart X lk c ms.
Proof.
  intros G. induction ms as [|m0 ms IH]; intros C pre m post m' p Q Hin Mp Nd; [destruct pre; discriminate|].
  cbn in C. apply andb_true_iff in C. destruct C as [C1 C2].
  destruct pre as [|? pre]; inversion Q; subst; [|eapply (IH C2 pre); eauto].
  rewrite forallb_forall in C1. specialize (C1 _ Hin). apply orb_true_iff in C1. destruct C1 as [C1|C1]; apply andb_true_iff in C1; destruct C1 as [A B].
  - split.
    + intros p' r P Mp'. destruct p' as [|[k v] p']; [eapply (filled_takes n); eauto|].
      eapply apart_sound; [exact B| |].
      * eapply (takes_W n); [exact G|exact Mp'|left; reflexivity].
      * eapply (takes_W n); [exact G|exact Mp|]. eapply keys_in_perm; [symmetry; exact P|]. left; reflexivity.
    + right. intros k Hk Hw. eapply apart_sound; [exact B|eapply wants_W; eauto|eapply takes_W; eauto].
  - split; [|left; eapply cutless_sound; eauto].
    intros p' r P Mp'. apply existsb_exists in B. destruct B as (l & Hl & B).
    assert (In l (keys p)) as Hk.
    { eapply keys_in_perm; [symmetry; exact P|]. rewrite keys_app. apply in_app_iff. left. eapply must_takes; eauto. }
    destruct (takes_W n _ _ _ _ G Mp Hk) as (b & Hb & Vb). rewrite forallb_forall in B.
    eapply apart_atoms_sound; [apply B; exact Hb|reflexivity|exact Vb].
Qed.
End Check.

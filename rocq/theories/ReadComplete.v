(** A text read as SpecReading.v says parses to the tree it is read as. *)
From Coq Require Import List Bool Arith ZArith NArith String Lia.
From Verif Require Import Base Util Data Ivt Ast Nom NomProofs Parser ParserFuel NomDone SpecSyntax ValueOrder TokenProofs LiteralProofs
  ParserSound ParserApi ParserSoft SpecPrint FlattenProofs PrintProofs PrintExact SpecReading ReadTokens.
Import ListNotations.
Open Scope list_scope.

Section WithX.
Variable X : ext.
Notation T1 := (parse_type1 X).
Notation G := (parse_group X).
Notation choice_end := SpecReading.choice_end.
Notation value_run := ReadTokens.value_run.

(** * Tokens and spaces *)
Lemma skip_ws i r : skip i r -> exists w, p_ws i = Done w r. Proof. apply skip_iff. Qed.
Lemma skip_char c i : solidc c -> skip (c :: i) (c :: i). Proof. intros H. apply skip_solid. exact H. Qed.
Lemma closer_solid c : In c [0x29; 0x5d; 0x7d; 0x3e; 0x2c; 0x2f; 0x3a; 0x3d; 0x5e; 0x2e]%N -> solidc c. Proof. intros H. chars. Qed.
Lemma in_reads {A} (o c : N) so sc (p : parser A) i j a k r : txt so = [o] -> txt sc = [c] -> opens so i j -> p j = Done a k -> closes sc k r ->
  p_in o c p i = Done a r.
Proof.
  intros Eo Ec (q & -> & S) H (m & S' & ->). rewrite Eo, Ec in *. apply skip_ws in S, S'. destruct S as (w & S), S' as (w' & S').
  unfold p_in. eapply del_run; [apply charp_run|eapply del_run; eauto|apply charp_run].
Qed.
Lemma closes_here s c r : txt s = [c] -> solidc c -> closes s (txt s ++ r) r.
Proof. intros E S. exists (txt s ++ r). split; auto. rewrite E. apply skip_char; auto. Qed.
Lemma opens_head s c i j : txt s = [c] -> opens s i j -> is_head (eq c) i.
Proof. intros E (k & -> & _). rewrite E. reflexivity. Qed.
Lemma ident_longest i n r : longest is_ident i n r -> p_ident i = Done n r /\ is_head EALPHA i.
Proof.
  intros H. pose proof H as (I & -> & _). split; [apply name_iff; auto|]. apply head_app, ident_head; auto.
Qed.
Lemma name_soft_value i : ~ starts_bytes i -> is_head EALPHA i -> soft (p_value X i).
Proof.
  intros N H. destruct i as [|c i]; [destruct H|]. cbn in H. apply soft_value; [cbn; chars|intros r E; apply N; exists r; auto..].
Qed.
Lemma not_start1 c i : ~ starts [c] i -> ~ is_head (eq c) i.
Proof. intros H. apply (not_starts _ _ H). left; auto. Qed.
Lemma tag_skip s k r : opens s k r -> exists w, pairp (tag s) p_ws k = Done (txt s, w) r.
Proof. intros (q & -> & S). apply skip_ws in S. destruct S as (w & S). exists w. eapply pair_run; [apply tag_run|exact S]. Qed.
Lemma spaced_run s k r : spaced s k r -> delimited p_ws (tag s) p_ws k = Done (txt s) r.
Proof.
  intros (q & S & (m & -> & S')). apply skip_ws in S, S'. destruct S as (w & S), S' as (w' & S'). eapply del_run; eauto. apply tag_run.
Qed.
Lemma opens_spaced s i j c l : txt s = c :: l -> solidc c -> opens s i j -> spaced s i j.
Proof. intros E S H. exists i. split; auto. destruct H as (k & -> & _). rewrite E. apply skip_char; auto. Qed.

(** * Phrases *)
Definition Q2 (i : text) (t : type2) (r : text) : Prop := p_type2 X T1 G i = Done t r.
Definition Qn (i n : text) (a : list type1) (r : text) : Prop := p_name_generic T1 i = Done (n, a) r /\ is_head EALPHA i.
Definition Qa (i : text) (a : list type1) (r : text) : Prop :=
  exists x l m, a = x :: l /\ terminated T1 p_ws i = Done x m /\ sreps (pairp (tag ",") p_ws) (terminated T1 p_ws) m l (txt ">" ++ r).
Definition Q1 (i : text) (t : type1) (r : text) : Prop := T1 i = Done t r.
Definition Qt (i : text) (t : list type1) (r : text) : Prop :=
  exists a l j, t = a :: l /\ T1 i = Done a j /\ reps (preceded p_slash T1) j l r /\ sreps p_slash T1 j l r /\ (l = [] -> j = r).
Definition Qc (i : text) (c : list grpent) (r : text) : Prop := p_grpchoice T1 G i = Done c r /\ choice_end r.
(** [i] does not begin with a type in front of a closing parenthesis. *)
Definition Ue (i : text) (e : grpent) (r : text) : Prop :=
  untype X i \/ exists t, e = GrpEnt None (GMember None t) /\ p_ty T1 i = Done t r.
Definition Uv (i : text) (v : grpent_val) (r : text) : Prop :=
  untype X i \/ exists t, v = GMember None t /\ p_ty T1 i = Done t r.
Definition Qe (i : text) (e : grpent) (r : text) : Prop := (exists r', p_grpent T1 G i = Done e r' /\ left_of r r') /\ Ue i e r.
Definition paren_soft_at (i : text) (v : grpent_val) : Prop := match v with GParen _ => soft (T1 i) | _ => True end.
Definition Qv (i : text) (v : grpent_val) (r : text) : Prop := (exists r', p_grpent_val T1 G i = Done v r' /\ left_of r r') /\ Uv i v r /\ paren_soft_at i v.

Lemma end_stop r : choice_end r -> PrintExact.choice_end r.
Proof. intros [H|(j & ->)]; [|cbn; auto 10]. destruct r as [|c r]; [destruct H|]. cbn in *. tauto. Qed.
Lemma slash_len i x m : p_slash i = Done x m -> List.length m <> List.length i.
Proof. intros H. assert (E : eats p_slash) by (unfold p_slash; auto with nom). apply E in H. lia. Qed.
Lemma t1_len i t r : T1 i = Done t r -> List.length r < List.length i.
Proof. apply eats_type1. Qed.
Lemma ty_reads i t r : Qt i t r -> p_ty T1 i = Done t r.
Proof. intros (a & l & j & -> & H & _ & S & _). apply sep_done; [auto with nom|apply shrinks_t1|]. eauto 10. Qed.
Lemma slash_cont r k : skip r k -> (~ starts [0x2f%N] k \/ exists j, k = txt "//" ++ j) ->
  soft (preceded p_slash T1 r) /\ sreps p_slash T1 r [] r.
Proof.
  intros S H. apply skip_ws in S. destruct S as (w & S). destruct H as [H|(j & ->)].
  - apply not_start1 in H. destruct (slash_soft' r w k S H) as [e E]. split; [apply soft_bind; eexists; eauto|eapply sreps_nil; eauto].
  - assert (E : p_slash r = Done (txt "/") (0x2f%N :: j)).
    { unfold p_slash. eapply del_run; [exact S|apply (tag_run "/")|apply ws_solid; cbn; chars]. }
    assert (T : soft (T1 (0x2f%N :: j))) by (apply end_soft_t1; cbn; auto 10). pose proof T as [e T']. split.
    + unfold preceded, bindp. rewrite E. exact T.
    + eapply sreps_nil'; eauto. eapply slash_len; eauto.
Qed.
Lemma roc_stop r k : skip r k -> ~ starts [0x2e%N] k -> soft (preceded p_ws (p_range_or_control X T1 G) r).
Proof.
  intros S H. apply skip_ws in S. destruct S as (w & S). unfold preceded, bindp. rewrite S. apply soft_bind. apply not_start1 in H.
  repeat apply soft_or; try (eapply soft_tag_head; [reflexivity|auto]). apply soft_bind. eapply soft_tag_head; [reflexivity|auto].
Qed.
Lemma simple_reads i t r k : p_type2 X T1 G i = Done t r -> skip r k -> ~ starts [0x2e%N] k -> T1 i = Done (T1Simple t) r.
Proof.
  intros H S N. rewrite type1_eq. unfold type1_body. eapply map_run with (a := (t, None)); [|reflexivity]. eapply pair_run; [exact H|].
  apply opt_soft. eapply roc_stop; eauto.
Qed.
Lemma op_reads i s j k op l m e r f : p_type2 X T1 G i = Done s j -> skip j k -> orp (tag "...") (orp (tag "..") p_control_op) k = Done op l -> skip l m ->
  p_type2 X T1 G m = Done e r ->
  (if text_eqb op (txt "..") then T1Range s e true else if text_eqb op (txt "...") then T1Range s e false else T1Control s e op) = f -> T1 i = Done f r.
Proof.
  intros H S O S' H' <-. apply skip_ws in S, S'. destruct S as (w & S), S' as (w' & S'). rewrite type1_eq. unfold type1_body.
  eapply map_run with (a := (s, Some (op, e))); [|reflexivity]. eapply pair_run; [exact H|]. apply opt_run. eapply pre_run; [exact S|].
  eapply pair_run; [exact O|]. eapply pre_run; [exact S'|exact H'].
Qed.
Lemma more_reads j l r m : reps (preceded p_slash T1) j l r -> (l = [] -> j = r) -> skip j m ->
  exists r', p_more_choices T1 m = Done l r' /\ left_of r r' /\ (l = [] -> r' = m).
Proof.
  intros R L S. pose proof S as S0. apply skip_ws in S. destruct S as (w & S).
  assert (Eq : forall x, p_slash j = x -> p_slash m = x).
  { intros x <-. unfold p_slash, delimited, bindp at 1 4. rewrite S, (ws_idem _ _ _ S). reflexivity. }
  assert (Sh : shrinks (preceded p_slash T1)) by (apply shrinks_bind; [auto with nom|intros; apply shrinks_t1]).
  inversion R as [i e E Q1 Q2|i a m' l' r'' E Ln R' Q1 Q2]; subst.
  - exists m. split; [|split; [right; eauto|auto]]. apply many0_done; auto. 
    assert (E' : preceded p_slash T1 m = Soft e) by (rewrite <- E; unfold preceded, bindp; rewrite (Eq _ eq_refl); reflexivity). eapply reps_nil; eauto.
  - exists r. split; [|split; [left; auto|discriminate]]. apply many0_done; auto.
    assert (E' : preceded p_slash T1 m = Done a m') by (rewrite <- E; unfold preceded, bindp; rewrite (Eq _ eq_refl); reflexivity).
    eapply reps_cons; eauto. assert (Et : eats (preceded p_slash T1)) by (apply eats_bind_r; [auto with nom|intros; apply eats_type1]). apply Et in E'. lia.
Qed.
Lemma untype_next i t r k : p_ty T1 i = Done t r -> skip r k -> ~ starts [0x29%N] k -> untype X i.
Proof. intros H S N. apply skip_ws in S. destruct S as (w & S). right. exists t, r, w, k. split; auto. split; auto. apply not_start1; auto. Qed.
Lemma key_reads i a j k c : T1 i = Done a j -> skip j k -> is_head (eq c) k -> In c [0x3a; 0x3d; 0x5e]%N -> untype X i.
Proof.
  intros H S C I. assert (N : forall x, In x [0x29; 0x2f]%N -> ~ starts [x] k).
  { intros x Ix Q. destruct k as [|d k]; [destruct C|]. cbn in *. subst. lia. }
  eapply (untype_next i [a] j k); eauto; [|apply N; cbn; auto]. apply ty_reads. exists a, [], j. split; auto. split; auto.
  destruct (slash_cont j k S) as [[e E] Q]; [left; apply N; cbn; auto|]. split; [eapply reps_nil; eauto|]. auto.
Qed.
Lemma in_soft' {A} (p : parser A) (o c : N) i j : (exists q, i = o :: q /\ skip q j) ->
  soft (p j) \/ (exists a m w m', p j = Done a m /\ p_ws m = Done w m' /\ ~ is_head (eq c) m') -> soft (p_in o c p i).
Proof.
  intros (q & -> & S) Q. apply skip_ws in S. destruct S as (w0 & S).
  unfold p_in, delimited at 1, bindp at 1. rewrite charp_run. destruct Q as [Q|(a & m & w & m' & E & E' & H')].
  - apply soft_bind. unfold delimited, bindp at 1. rewrite S. apply soft_bind; auto.
  - unfold bindp at 1. rewrite (del_run p_ws p p_ws q w0 j a m w m') by auto. apply soft_bind, soft_char; auto.
Qed.
Lemma paren_soft' i j : opens "(" i j -> untype X j -> soft (T1 i).
Proof.
  intros (q & -> & S) U. apply soft_type1. destruct (head_soft2 X (txt "(" ++ q) 0x28%N) as [V Nm]; [reflexivity|chars|].
  repeat apply soft_or; apply soft_map; auto; try (apply soft_bind; first [apply soft_char|eapply soft_tag_head; [reflexivity|]]; cbn; discriminate).
  apply (in_soft' _ _ _ _ j); [exists q; auto|]. destruct U as [U|(t & r' & w & r'' & E & E' & H)]; [auto|]. right. eauto 10.
Qed.
Lemma optcom_reads j k r' : u_optcom j k -> left_of j r' -> p_optcom r' = Done tt k.
Proof.
  intros O L. assert (S : forall q, skip j q -> exists w, p_ws r' = Done w q).
  { intros q S. apply skip_ws. destruct L as [-> | [w L]]; auto. assert (skip j r') by (apply skip_iff; eauto).
    rewrite (skip_fun _ _ _ H S). eapply skip_idem; eauto. }
  unfold p_optcom, valuep. destruct O as [(q & Sq & O)|[Sq N]].
  - destruct (S _ Sq) as (w & W). destruct (tag_skip _ _ _ O) as (w' & P). eapply (map_run (fun _ => tt)); [|reflexivity]. eapply pair_run; [exact W|]. apply opt_run, P.
  - destruct (S _ Sq) as (w & W). eapply (map_run (fun _ => tt)); [|reflexivity]. eapply pair_run; [exact W|].
    apply opt_soft, soft_bind. eapply soft_tag_head; [reflexivity|]. apply not_start1; auto.
Qed.
Lemma eats_ent : eats (p_grpent T1 G).
Proof.
  pose proof (shrinks_t1 X) as St. apply eats_map. apply eats_pair_r; [apply shrinks_opt, shrinks_terminated; [apply eats_shrinks, eats_occur|auto with nom]|].
  apply eats_or; [|apply eats_or; [apply eats_map; auto with nom|apply eats_map, eats_in, shrinks_group]].
  apply eats_bind_l; [apply eats_bind_l; [apply eats_type1|intros; apply shrinks_bind; auto with nom]|].
  intros [[]| |]; auto using shrinks_colon, shrinks_arrow.
Qed.
Lemma eats_item : eats (terminated (p_grpent T1 G) p_optcom).
Proof. apply eats_bind_l; [apply eats_ent|]. intros. apply shrinks_bind; auto with nom. Qed.
Definition Qc2 (i : text) (c : list grpent) (r : text) : Prop :=
  Qc i c r /\ (untype X i \/ exists t j, c = [GrpEnt None (GMember None t)] /\ p_ty T1 i = Done t j /\ skip j r).

Lemma choice_reps i c r : p_grpchoice T1 G i = Done c r <-> reps (terminated (p_grpent T1 G) p_optcom) i c r.
Proof. apply many0_done. apply eats_shrinks, eats_item. Qed.
Lemma choice_nil i : choice_end i -> Qc2 i [] i.
Proof.
  intros H. pose proof (end_stop _ H) as H'. split; [split; auto|left; apply end_untype; auto].
  apply choice_reps. destruct (soft_bind (p_grpent T1 G) (fun a => bindp p_optcom (fun _ => ret a)) i (end_soft X i H')) as [x E]. eapply reps_nil; eauto.
Qed.
Lemma choice_cons i e j k c r : Qe i e j -> u_optcom j k -> Qc2 k c r -> Qc2 i (e :: c) r.
Proof.
  intros [(r' & E & L) U] O [[C Er] _].
  assert (It : terminated (p_grpent T1 G) p_optcom i = Done e k) by (eapply ter_run; [exact E|eapply optcom_reads; eauto]).
  split; [split; auto|].
  - apply choice_reps in C. apply choice_reps. eapply reps_cons; eauto. apply eats_item in It. lia.
  - destruct U as [U|(t & -> & T)]; auto. destruct O as [(q & S & O)|[S N]].
    + left. eapply untype_next; eauto. intros Q. destruct O as (m & -> & _). destruct Q as [Q|[]]. discriminate.
    + apply choice_reps in C. inversion C as [a b D|a b m l q D Ln R]; subst; [right; eauto|]. left. eapply untype_next; eauto.
      intros Q. assert (H : PrintExact.choice_end k) by (destruct k as [|x k]; [destruct Q|]; cbn in *; tauto).
      destruct (soft_bind (p_grpent T1 G) (fun a => bindp p_optcom (fun _ => ret a)) k (end_soft X k H)) as [x E'].
      unfold terminated in D. congruence.
Qed.
Definition Qg2 (i : text) (g : list (list grpent)) (r : text) : Prop :=
  (starts [0x29; 0x5d; 0x7d]%N r -> exists c l m, g = c :: l /\ p_grpchoice T1 G i = Done c m /\
     reps (preceded (delimited p_ws (tag "//") p_ws) (p_grpchoice T1 G)) m l r) /\ (untype X i \/ lone g).
Lemma group_reads i g r : Qg2 i g r -> starts [0x29; 0x5d; 0x7d]%N r -> G i = Done g r.
Proof.
  intros [H _] S. destruct (H S) as (c & l & m & -> & C & R). rewrite group_eq. unfold group_body. apply (map_run _ _ _ (c, l)); [|reflexivity].
  eapply pair_run; [exact C|]. apply many0_done; auto.
  apply shrinks_bind; [auto 10 with nom|]. intros. apply shrinks_grpchoice; [apply shrinks_t1|apply shrinks_group].
Qed.
Lemma starts_slash j : ~ starts [0x29%N] (txt "//" ++ j). Proof. intros [Q|[]]. discriminate. Qed.
Lemma group_last i c r : Qc2 i c r -> Qg2 i [c] r.
Proof.
  intros [[C Er] U]. split.
  - intros S. exists c, [], r. split; auto. split; auto.
    assert (Q : soft (preceded (delimited p_ws (tag "//") p_ws) (p_grpchoice T1 G) r)).
    { apply soft_bind. unfold delimited, bindp at 1. rewrite ws_solid by (apply end_solid, end_stop; auto). apply soft_bind. eapply soft_tag_head; [reflexivity|].
      destruct r as [|x r]; cbn in *; auto. intros <-. destruct S as [S|[S|[S|[]]]]; discriminate. }
    destruct Q as [e Q]. eapply reps_nil; eauto.
  - destruct U as [U|(t & j & -> & _)]; auto. right. exists t. reflexivity.
Qed.
Lemma group_more i c j k g r : Qc2 i c j -> opens "//" j k -> Qg2 k g r -> Qg2 i (c :: g) r.
Proof.
  intros [[C Er] U] O [Hg _]. split.
  - intros S. destruct (Hg S) as (c' & l & m & -> & C' & R). exists c, (c' :: l), j. split; auto. split; auto.
    assert (Sp : spaced "//" j k) by (eapply (opens_spaced "//" j k 0x2f%N); [reflexivity|chars|exact O]). apply spaced_run in Sp.
    assert (E : preceded (delimited p_ws (tag "//") p_ws) (p_grpchoice T1 G) j = Done c' m) by (eapply pre_run; eauto).
    eapply reps_cons; eauto.
    assert (Et : eats (preceded (delimited p_ws (tag "//") p_ws) (p_grpchoice T1 G))).
    { apply eats_bind_l; [apply eats_delimited_m; [auto with nom|apply eats_tag; discriminate|auto with nom]|]. intros. apply shrinks_grpchoice; [apply shrinks_t1|apply shrinks_group]. }
    apply Et in E. lia.
  - left. destruct U as [U|(t & m & -> & T & S)]; auto. eapply untype_next; eauto. destruct O as (q & -> & _). apply starts_slash.
Qed.
Lemma digit_or i : is_head DIGIT i \/ ~ is_head DIGIT i.
Proof. destruct i as [|c i]; [right; intros []|]. cbn. unfold DIGIT, between. lia. Qed.
Lemma optional_nil_longest (P : text -> Prop) k : (forall s r, k = s ++ r -> P s -> False) -> longest (optional P) k [] k.
Proof. intros H. split; [left; auto|]. split; auto. intros s' r' E [->|Q]; auto. destruct (H _ _ E Q). Qed.
Lemma star_number i n j : u_uint i n (0x2a%N :: j) -> (n < 2 ^ 64)%N -> untype X i.
Proof.
  intros (s & L & U) B. 
  assert (V : u_value X i (AUint n) (0x2a%N :: j)).
  { apply (ux_uint X i s); auto. split; [left; auto|]. exists i, (0x2a%N :: j), (0x2a%N :: j). split; auto. split; auto.
    split; apply optional_nil_longest; intros s' r' E P.
    - destruct P as (d & -> & _). discriminate.
    - destruct P as (sg & d & -> & _). discriminate. }
  apply value_run in V.
  assert (T : T1 i = Done (T1Simple (T2Value (AUint n))) (0x2a%N :: j)).
  { eapply simple_reads; [apply or_run; eapply map_run; [exact V|reflexivity]|apply skip_char; chars|]. intros [Q|[]]. discriminate. }
  assert (S : skip (0x2a%N :: j) (0x2a%N :: j)) by (apply skip_char; chars).
  eapply (untype_next i [T1Simple (T2Value (AUint n))]); [|exact S|intros [Q|[]]; discriminate]. apply ty_reads.
  destruct (slash_cont _ _ S) as [[e E] Q]; [left; intros [Q|[]]; discriminate|].
  exists (T1Simple (T2Value (AUint n))), [], (0x2a%N :: j). split; auto. split; auto. split; [eapply reps_nil; eauto|]. auto.
Qed.
Lemma occ_head i o j : u_occur i o j -> ~ is_head DIGIT i -> is_head (fun c => c = 0x3f \/ c = 0x2a \/ c = 0x2b)%N i.
Proof.
  intros O N. destruct O as [r|r|i r A D|i lo j hi r A B M]; try (cbn; auto; fail).
  - inversion A; subst. cbn. auto.
  - inversion A as [i' D E1 E2|i' n r' U L]; subst; [cbn; auto|]. apply u_uint_digit in U. contradiction.
Qed.
Lemma occ_t1 i : is_head (fun c => c = 0x3f \/ c = 0x2a \/ c = 0x2b)%N i -> soft (T1 i).
Proof. destruct i as [|c i]; [intros []|]. apply occ_soft. Qed.
Lemma occ_untype i o j : u_occur i o j -> untype X i.
Proof.
  intros O. destruct (digit_or i) as [D|D]; [|left; apply soft_ty, occ_t1; eapply occ_head; eauto].
  destruct O as [r|r|i r A D'|i lo j hi r A B M].
  - cbn in D. chars.
  - cbn in D. chars.
  - inversion A; subst. cbn in D. chars.
  - inversion A as [i' D' E1 E2|i' n r' U L]; subst; [cbn in D; chars|]. apply (star_number i n j); [exact U|exact L].
Qed.
Lemma member_reads i (a : type1) j m : T1 i = Done a j -> skip j m ->
  p_grpent_member T1 i = match a with T1Simple (T2Value _) | T1Simple (T2Typename _ _) => member_colon T1 a m | _ => member_arrow T1 a m end.
Proof.
  intros E S. apply skip_ws in S. destruct S as (w & W). unfold p_grpent_member, bindp at 1; rewrite (ter_run _ _ _ _ _ _ _ E W); destruct a as [[]| |]; reflexivity.
Qed.
Lemma val_type i t r : Qt i t r -> beyond [0x3a; 0x3d; 0x5e]%N r -> Qv i (GMember None t) r.
Proof.
  intros H B. pose proof (ty_reads _ _ _ H) as T. destruct H as (a & l & j & -> & E & R & S & L). split; [|split; [right; eauto|exact Logic.I]].
  destruct (skip_total j) as [m Sm]. destruct (more_reads j l r m R L Sm) as (r' & M & Lf & _). exists r'. split; auto. apply or_run.
  rewrite (member_reads _ _ _ _ E Sm). apply plain_run; auto. destruct m as [|c m]; auto. unfold plainc. intros I.
  inversion R as [x e E' Q1 Q2|x b q l' r2 E' Ln R' Q1 Q2]; subst.
  - destruct B as (k & Sk & N). rewrite <- (skip_fun _ _ _ Sk Sm) in N. apply N. exact I.
  - apply preceded_done in E'. destruct E' as (x & q2 & E' & _). apply delimited_done in E'. destruct E' as (w & q3 & q4 & w' & W & E' & _).
    apply tag_done in E'. destruct E' as [_ ->]. assert (S2 : skip j (txt "/" ++ q4)) by (apply skip_iff; eauto).
    pose proof (skip_fun _ _ _ Sm S2) as Q. inversion Q; subst. destruct I as [I|[I|[I|[]]]]; discriminate.
Qed.
Lemma colon_reads i a j k t r v : T1 i = Done a j -> spaced ":" j k -> Qt k t r -> assemble_basic_member a t = Some (inl v) -> Qv i v r.
Proof.
  intros E (m & S & O) Ht A. pose proof (ty_reads _ _ _ Ht) as T.
  assert (U : untype X i).
  { eapply key_reads; [exact E|exact S|apply (opens_head ":" 0x3a%N m k eq_refl O)|cbn; auto]. }
  split; [|split; [left; auto|destruct a as [[| ? [|] | | | | | |]| |]; try discriminate; inversion A; exact Logic.I]].
  exists r. split; [|left; auto]. apply or_run. rewrite (member_reads _ _ _ _ E S). destruct (tag_skip _ _ _ O) as (w & P).
  assert (K : p_memberkey_tail T1 m = Done t r) by (eapply pre_run; eauto).
  destruct a as [[| ? [|] | | | | | |]| |]; try discriminate; unfold member_colon; rewrite K, A; reflexivity.
Qed.
Lemma arrow_reads i a j m (cut : bool) t r : T1 i = Done a j -> skip j m -> is_head (fun c => c = 0x3d \/ c = 0x5e)%N m -> p_arrow_tail T1 m = Done (cut, t) r ->
  Qv i (GMember (Some (MKey (MKType1 a) cut)) t) r.
Proof.
  intros E S H A.
  assert (U : untype X i).
  { destruct m as [|c m]; [destruct H|]. destruct H as [-> | ->]; eapply key_reads; eauto; cbn; auto. }
  split; [|split; [left; auto|exact Logic.I]]. exists r. split; [|left; auto]. apply or_run. rewrite (member_reads _ _ _ _ E S).
  rewrite arrow_member; [unfold member_arrow; rewrite A; reflexivity|]. apply colon_soft. destruct m; [auto|]. cbn in *. intros <-. destruct H; discriminate.
Qed.
Lemma paren_reads i j g r : opens "(" i j -> G j = Done g (txt ")" ++ r) -> untype X j -> Qv i (GParen g) r.
Proof.
  intros O H U. pose proof (paren_soft' _ _ O U) as T.
  split; [|split; [left; left; apply soft_ty; auto|exact T]]. exists r. split; [|left; auto].
  unfold p_grpent_val. pose proof (opens_head "(" 0x28%N _ _ eq_refl O) as Hd. rewrite or_soft, or_soft.
  - eapply map_run; [|reflexivity]. eapply (in_reads 0x28 0x29 "(" ")"); eauto. apply (closes_here ")" 0x29); auto. chars.
  - apply soft_map, soft_ident. destruct i; cbn in *; auto. intros Q. subst. chars.
  - apply soft_bind, soft_bind. auto.
Qed.

Theorem reads :
  (forall i t r, u_type2 X i t r -> Q2 i t r) /\
  (forall i n a r, u_name X i n a r -> Qn i n a r) /\
  (forall i a r, u_args X i a r -> Qa i a r) /\
  (forall i t r, u_type1 X i t r -> Q1 i t r) /\
  (forall i t r, u_type X i t r -> Qt i t r) /\
  (forall i g r, u_group X i g r -> Qg2 i g r) /\
  (forall i c r, u_choice X i c r -> Qc2 i c r) /\
  (forall i e r, u_grpent X i e r -> Qe i e r) /\
  (forall i v r, u_val X i v r -> Qv i v r).
Proof.
  apply (u_mind X (fun i t r _ => Q2 i t r) (fun i n a r _ => Qn i n a r) (fun i a r _ => Qa i a r) (fun i t r _ => Q1 i t r) (fun i t r _ => Qt i t r)
    (fun i g r _ => Qg2 i g r) (fun i c r _ => Qc2 i c r) (fun i e r _ => Qe i e r) (fun i v r _ => Qv i v r)).
  - (* value *) intros i v r H. apply or_run. eapply map_run; [apply value_run; eauto|reflexivity].
  - intros i n a r N H [Q Hd]. unfold Q2, p_type2. rewrite or_soft by (apply soft_map, name_soft_value; auto). apply or_run. apply (map_run _ _ _ (n, a)); auto.
  - intros i j t k r O _ H C. pose proof (opens_head "(" 0x28%N _ _ eq_refl O) as Hd. destruct (head_soft2 X i 0x28%N Hd) as [V Nm]; [chars|].
    unfold Q2, p_type2. rewrite or_soft by (apply soft_map; auto). rewrite or_soft by (apply soft_map; auto). apply or_run. eapply map_run; [|reflexivity].
    eapply (in_reads 0x28 0x29 "(" ")"); eauto. apply ty_reads; auto.
  - intros i j g r O _ H. pose proof (opens_head "{" 0x7b%N _ _ eq_refl O) as Hd. destruct (head_soft2 X i 0x7b%N Hd) as [V Nm]; [chars|].
    destruct i as [|c i]; [destruct Hd|]. cbn in Hd. subst c.
    unfold Q2, p_type2. do 2 (rewrite or_soft by (apply soft_map; auto)). rewrite or_soft by (apply soft_map, soft_bind, soft_char; cbn; discriminate).
    apply or_run. eapply map_run; [|reflexivity]. eapply (in_reads 0x7b 0x7d "{" "}"); eauto; [eapply group_reads; eauto; cbn; auto|]. apply (closes_here "}" 0x7d); auto; chars.
  - intros i j g r O _ H. pose proof (opens_head "[" 0x5b%N _ _ eq_refl O) as Hd. destruct (head_soft2 X i 0x5b%N Hd) as [V Nm]; [chars|].
    destruct i as [|c i]; [destruct Hd|]. cbn in Hd. subst c.
    unfold Q2, p_type2. do 2 (rewrite or_soft by (apply soft_map; auto)). do 2 (rewrite or_soft by (apply soft_map, soft_bind, soft_char; cbn; discriminate)).
    apply or_run. eapply map_run; [|reflexivity]. eapply (in_reads 0x5b 0x5d "[" "]"); eauto; [eapply group_reads; eauto; cbn; auto|]. apply (closes_here "]" 0x5d); auto; chars.
  - intros i j n a r O _ [H _]. pose proof (opens_head "~" 0x7e%N _ _ eq_refl O) as Hd. destruct (head_soft2 X i 0x7e%N Hd) as [V Nm]; [chars|].
    destruct O as (q & -> & S). apply skip_ws in S. destruct S as (w & S).
    unfold Q2, p_type2. do 2 (rewrite or_soft by (apply soft_map; auto)). do 3 (rewrite or_soft by (apply soft_map, soft_bind, soft_char; cbn; discriminate)).
    apply or_run. eapply map_run with (a := (n, a)); [|reflexivity]. eapply pre_run; [apply tag_run|]. eapply pre_run; eauto.
  - intros i j k g r O O' _ H. pose proof (opens_head "&" 0x26%N _ _ eq_refl O) as Hd. destruct (head_soft2 X i 0x26%N Hd) as [V Nm]; [chars|].
    destruct O as (q & -> & S). apply skip_ws in S. destruct S as (w & S).
    unfold Q2, p_type2. do 2 (rewrite or_soft by (apply soft_map; auto)). do 3 (rewrite or_soft by (apply soft_map, soft_bind, soft_char; cbn; discriminate)).
    rewrite or_soft by (apply soft_map, soft_bind; eapply soft_tag_head; [reflexivity|cbn; discriminate]).
    apply or_run. eapply map_run; [|reflexivity]. eapply pre_run; [apply tag_run|]. eapply pre_run; [exact S|].
    eapply (in_reads 0x28 0x29 "(" ")"); eauto; [eapply group_reads; eauto; cbn; auto|]. apply (closes_here ")" 0x29); auto; chars.
  - intros i j n a r O _ [H He]. pose proof (opens_head "&" 0x26%N _ _ eq_refl O) as Hd. destruct (head_soft2 X i 0x26%N Hd) as [V Nm]; [chars|].
    destruct O as (q & -> & S). apply skip_ws in S. destruct S as (w & S).
    unfold Q2, p_type2. do 2 (rewrite or_soft by (apply soft_map; auto)). do 3 (rewrite or_soft by (apply soft_map, soft_bind, soft_char; cbn; discriminate)).
    rewrite or_soft by (apply soft_map, soft_bind; eapply soft_tag_head; [reflexivity|cbn; discriminate]).
    rewrite or_soft.
    + eapply map_run with (a := (n, a)); [|reflexivity]. eapply pre_run; [apply tag_run|]. eapply pre_run; eauto.
    + apply soft_map. unfold preceded at 1, bindp. rewrite (tag_run "&"). unfold preceded, bindp. rewrite S.
      apply soft_bind, soft_char. destruct j; cbn in *; auto. intros <-. chars.
  - (* names *) intros i n r H N. apply ident_longest in H. destruct H as [H Hd]. split; auto. apply (map_run _ _ _ (n, None)); [|reflexivity].
    eapply pair_run; [exact H|]. apply opt_soft. apply soft_bind, soft_bind. eapply soft_tag_head; [reflexivity|]. apply not_start1; auto.
  - intros i n j k a r H O _ Ha. apply ident_longest in H. destruct H as [H Hd]. split; auto. apply (map_run _ _ _ (n, Some a)); [|reflexivity].
    eapply pair_run; [exact H|]. apply opt_run. destruct (tag_skip _ _ _ O) as (w & P). destruct Ha as (x & l & m & -> & Hx & R).
    eapply del_run; [exact P| |apply (tag_run ">")]. apply sep_done; [auto with nom|apply shrinks_terminated; [apply shrinks_t1|auto with nom]|]. eauto 10.
  - (* arguments *) intros i t j r _ H (k & S & ->). apply skip_ws in S. destruct S as (w & S). exists t, [], (txt ">" ++ r). split; auto. split; [eapply ter_run; eauto|].
    eapply sreps_nil. reflexivity.
  - intros i t j k a r _ H (q & S & O) _ (x & l & m & -> & Hx & R). apply skip_ws in S. destruct S as (w & S). exists t, (x :: l), q. split; auto.
    split; [eapply ter_run; eauto|]. destruct (tag_skip _ _ _ O) as (w' & P). eapply sreps_cons; eauto.
    assert (Et : eats (pairp (tag ",") p_ws)) by auto with nom. apply Et in P. lia.
  - (* type1 *) intros i t r _ H (k & S & N). eapply simple_reads; eauto.
  - intros i s j k l m e r incl _ H S O S' _ H'. destruct incl; cbn in O.
    + destruct O as [-> N]. eapply (op_reads i s j _ (txt "..") l m e r); eauto. rewrite or_soft; [apply or_run, (tag_run "..")|]. apply soft_tag. intros q Q. 
      inversion Q; subst. apply N. left; reflexivity.
    + subst k. eapply (op_reads i s j _ (txt "...") l m e r); eauto.
  - intros i t j k op l m a r _ H S L S' _ H'. apply ident_longest in L. destruct L as [L Hd]. pose proof (proj1 (ident_tok _ _ _ L)) as I. apply ident_head in I.
    eapply (op_reads i t j _ op l m a r); eauto.
    + rewrite or_soft, or_soft; [eapply pre_run; [apply tag_run|auto]| |]; apply soft_tag; intros q Q; destruct k as [|c k]; [destruct Hd| |destruct Hd|];
        cbn in Hd; inversion Q; subst; chars.
    + destruct op as [|c op]; [destruct I|]. cbn in I. cbn. destruct (N.eqb_spec c 46); [subst; exfalso; chars|auto].
  - (* type *) intros i t r _ H (k & S & N). exists t, [], r. split; auto. split; [exact H|]. destruct (slash_cont _ _ S N) as [[e E] Q].
    split; [eapply reps_nil; eauto|]. auto.
  - intros i t j k l r _ H Sp _ (a & l' & j' & -> & Ha & R & Sr & L). exists t, (a :: l'), j. split; auto. split; [exact H|].
    apply spaced_run in Sp. fold p_slash in Sp. pose proof (slash_len _ _ _ Sp) as Ln. pose proof (t1_len _ _ _ Ha) as La.
    assert (Es : eats p_slash) by (unfold p_slash; auto with nom). pose proof (Es _ _ _ Sp) as Lp.
    split; [eapply reps_cons; [eapply pre_run; eauto|lia|auto]|]. split; [eapply sreps_cons; eauto|discriminate].
  - (* groups *) intros i c r _ H. apply group_last; auto.
  - intros i c j k g r _ H O _ H'. eapply group_more; eauto.
  - intros i H. apply choice_nil; auto.
  - intros i e j k c r _ H O _ H'. eapply choice_cons; eauto.
  - (* entries *) intros i v r N _ [(r' & H & L) [U _]]. split.
    + exists r'. split; auto. apply (map_run _ _ _ (None, v)); [|reflexivity]. eapply pair_run; [|exact H]. apply opt_soft, soft_bind, no_occur_iff; auto.
    + destruct U as [U|(t & -> & T)]; [left; auto|right; eauto].
  - intros i o j k v r O S _ [(r' & H & L) _]. apply skip_ws in S. destruct S as (w & S). split; [|left; eapply occ_untype; eauto].
    exists r'. split; auto. apply (map_run _ _ _ (Some o, v)); [|reflexivity]. eapply pair_run; [|exact H]. apply opt_run. eapply ter_run; [apply occur_iff; eauto|eauto].
  - intros i t r _ H B. apply val_type; auto.
  - intros i n j k t r N L Sp _ H. apply ident_longest in L. destruct L as [L Hd].
    eapply (colon_reads i (T1Simple (T2Typename n [])) j k t r); eauto. destruct Sp as (m & S & O). pose proof (opens_head ":" 0x3a%N _ _ eq_refl O) as Hm.
    assert (Nd : ~ starts [0x2e%N] m) by (destruct m as [|c m]; [intros []|]; cbn in Hm; subst; intros [Q|[]]; discriminate).
    eapply simple_reads; eauto. unfold p_type2. rewrite or_soft by (apply soft_map, name_soft_value; auto). apply or_run. apply (map_run _ _ _ (n, [])); [|reflexivity].
    apply (map_run _ _ _ (n, None)); [|reflexivity]. eapply pair_run; [exact L|]. apply opt_soft, soft_bind, soft_bind. eapply soft_tag_head; [reflexivity|].
    intros Q. destruct j as [|c j]; [destruct Q|]. cbn in Q. subst c. 
    assert (S2 : skip (0x3c%N :: j) (0x3c%N :: j)) by (apply skip_char; chars). destruct O as (q & -> & _). pose proof (skip_fun _ _ _ S S2). discriminate.
  - intros i v j k t r V Sp _ H. apply value_run in V. eapply (colon_reads i (T1Simple (T2Value v)) j k t r); eauto.
    destruct Sp as (m & S & O). pose proof (opens_head ":" 0x3a%N _ _ eq_refl O) as Hm.
    assert (Nd : ~ starts [0x2e%N] m) by (destruct m as [|c m]; [intros []|]; cbn in Hm; subst; intros [Q|[]]; discriminate).
    eapply simple_reads; eauto. apply or_run. eapply map_run; eauto.
  - intros i kt j k t r _ E (m & S & O) _ H. eapply arrow_reads; eauto; [destruct O as (q & -> & _); cbn; auto|].
    destruct O as (q & -> & S'). apply skip_ws in S'. destruct S' as (w & S').
    apply (map_run _ _ _ (None, t)); [|reflexivity]. eapply pair_run; [apply opt_soft, soft_bind; eapply soft_tag_head; [reflexivity|cbn; discriminate]|].
    eapply pre_run; [apply tag_run|]. eapply pre_run; [exact S'|apply ty_reads; auto].
  - intros i kt j k m t r _ E (q & S & O) O' _ H. eapply arrow_reads; eauto; [destruct O as (q' & -> & _); cbn; auto|].
    destruct O as (q' & -> & S'). apply skip_ws in S'. destruct S' as (w & S'). destruct O' as (q2 & -> & S2). apply skip_ws in S2. destruct S2 as (w2 & S2).
    apply (map_run _ _ _ (Some (txt "^"), t)); [|reflexivity]. eapply pair_run; [apply opt_run; eapply ter_run; [apply tag_run|exact S']|].
    eapply pre_run; [apply tag_run|]. eapply pre_run; [exact S2|apply ty_reads; auto].
  - intros i j g r O _ H N. pose proof (proj2 H) as [U|U]; [|contradiction]. eapply paren_reads; eauto. apply group_reads; auto. cbn; auto.
  - intros i j t k r O N _ H Sp. assert (B : beyond [0x3a; 0x3d; 0x5e]%N k).
    { destruct Sp as (m & S & (q & -> & _)). exists (txt "," ++ q). split; auto. intros [Q|[Q|[Q|[]]]]; discriminate. }
    pose proof (val_type _ _ _ H B) as [(r' & Hv & L) _]. eapply paren_reads; eauto.
    + apply group_reads; [|cbn; auto]. apply group_last. eapply choice_cons; [|left; exact Sp|apply choice_nil; left; cbn; auto].
      split; [|right; exists t; split; auto; apply ty_reads; auto]. exists r'. split; auto. apply (map_run _ _ _ (None, GMember None t)); [|reflexivity].
      eapply pair_run; [|exact Hv]. apply opt_soft, soft_bind, no_occur_iff; auto.
    + destruct Sp as (m & S & (q & -> & _)). eapply untype_next; [apply ty_reads; eauto|exact S|]. intros [Q|[]]. discriminate.
Qed.

(** * Rules *)
Lemma idents_reads i l r : u_idents i l r ->
  exists x k m, l = x :: k /\ terminated p_ident p_ws i = Done x m /\ sreps (pairp (tag ",") p_ws) (terminated p_ident p_ws) m k (txt ">" ++ r).
Proof.
  induction 1 as [i n j r L (k & S & ->)|i n j k l r L (q & S & O) _ (x & k' & m & -> & Hx & R)]; apply ident_longest in L; destruct L as [L _];
    apply skip_ws in S; destruct S as (w & S).
  - exists n, [], (txt ">" ++ r). split; auto. split; [eapply ter_run; eauto|]. eapply sreps_nil. reflexivity.
  - exists n, (x :: k'), q. split; auto. split; [eapply ter_run; eauto|]. destruct (tag_skip _ _ _ O) as (w' & P). eapply sreps_cons; eauto.
    assert (Et : eats (pairp (tag ",") p_ws)) by auto with nom. apply Et in P. lia.
Qed.
Lemma parms_reads i l r : u_parms i l r -> exists o, opt p_generic_parm i = Done o r /\ match o with Some x => x | None => [] end = l.
Proof.
  intros [j N|j k l' r' O I].
  - exists None. split; auto. apply opt_soft, soft_bind, soft_bind. eapply soft_tag_head; [reflexivity|]. apply not_start1; auto.
  - exists (Some l'). split; auto. apply opt_run. destruct (tag_skip _ _ _ O) as (w & P). apply idents_reads in I. destruct I as (x & q & m & -> & Hx & R).
    eapply del_run; [exact P| |apply (tag_run ">")]. apply sep_done; [auto with nom|apply shrinks_terminated; auto with nom|]. eauto 10.
Qed.
Lemma rule_reads i x r : u_rule X i x r -> exists r', p_rule T1 G i = Done x r' /\ left_of r r'.
Proof.
  assert (Q : forall i n j ps k m v r, longest is_ident i n j -> u_parms j ps k -> spaced "=" k m ->
    orp (mapp AssignType (p_ty T1)) (mapp AssignGroup (p_grpent T1 G)) m = Done v r -> p_rule T1 G i = Done (Rule n ps v) r).
  { clear. intros i n j ps k m v r L P (q & S & (q' & -> & S')) H. apply ident_longest in L. destruct L as [L _]. apply parms_reads in P. destruct P as (o & P & E).
    apply skip_ws in S, S'. destruct S as (w & S), S' as (w' & S').
    unfold p_rule. apply (map_run _ _ _ ((n, o), v)); [|cbn [fst snd]; congruence].
    apply separated_pair_done. exists k, (txt "=" ++ q'), w. cbn [fst snd]. split; [eapply pair_run; eauto|]. split; [exact S|].
    eapply (map_run snd) with (a := (txt "=", v)); [|reflexivity]. apply separated_pair_done. exists q', m, w'. cbn [fst snd]. split; [apply (tag_run "=")|]. auto. }
  intros [i' n j ps k m t r' L P S H|i' n j ps k m e r' L P S H N].
  - exists r'. split; [|left; auto]. eapply Q; eauto. apply or_run. eapply map_run; [|reflexivity]. apply ty_reads, reads. auto.
  - pose proof (proj1 (proj2 (proj2 (proj2 (proj2 (proj2 (proj2 (proj2 reads))))))) _ _ _ H) as [(r2 & E & L2) _]. exists r2. split; auto.
    eapply Q; eauto. rewrite or_soft; [eapply map_run; [exact E|reflexivity]|]. apply soft_map, soft_ty.
    destruct H as [i2 v r0 No Hv|i2 o j' k' v r0 O Sk Hv].
    + destruct v as [| |g]; try destruct N. apply reads in Hv. apply Hv.
    + cbn in N. apply occ_t1. eapply occ_head; eauto.
Qed.
Lemma left_skip j r k : left_of j r -> skip j k -> skip r k.
Proof.
  intros [-> | [w L]] S; auto. assert (S' : skip j r) by (apply skip_iff; eauto). rewrite (skip_fun _ _ _ S' S). eapply skip_idem; eauto.
Qed.
Theorem cddl_reads i c : u_cddl X i c -> parse_cddl X i = Some (inl c).
Proof.
  intros (N & j & S & R).
  assert (It : forall i x j k, u_rule X i x j -> skip j k -> terminated (p_rule T1 G) p_ws i = Done x k).
  { intros i' x j' k H Sk. apply rule_reads in H. destruct H as (r' & E & L). apply (left_skip _ _ _ L), skip_ws in Sk. destruct Sk as (w & W). eapply ter_run; eauto. }
  assert (Ea : eats (terminated (p_rule T1 G) p_ws)).
  { apply eats_bind_l; [apply eats_rule; [apply shrinks_t1|apply shrinks_group]|intros; apply shrinks_bind; auto with nom]. }
  assert (Rs : forall i c, u_rules X i c -> reps (terminated (p_rule T1 G) p_ws) i c []).
  { induction 1 as [|i' x j' k l H Sk _ IH]; [eapply reps_nil; reflexivity|]. pose proof (It _ _ _ _ H Sk) as E. eapply reps_cons; eauto. apply Ea in E. lia. }
  enough (Q : p_cddl T1 G i = Done c []).
  { unfold parse_cddl. replace (all_consuming (p_cddl T1 G) i) with (Done c ([] : text)); [reflexivity|]. symmetry. apply all_done. auto. }
  apply skip_ws in S. destruct S as (w & S). unfold p_cddl. eapply pre_run; [exact S|]. apply many1_done; [apply eats_shrinks, Ea|].
  apply Rs in R. inversion R as [|i' x m l r E Ln R']; subst; [congruence|]. eauto 10.
Qed.
End WithX.

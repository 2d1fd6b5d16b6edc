(** What the parser accepts is read as SpecReading.v says: the converse of
    ReadComplete.v.  Where a phrase ends in a way that SpecReading.v does not
    allow, the text that follows cannot be parsed. *)
From Coq Require Import List Bool Arith ZArith NArith String Lia.
From Verif Require Import Base Util Data Ivt Ast Nom NomProofs Parser ParserFuel NomDone SpecSyntax ValueOrder TokenProofs LiteralProofs
  ParserSound ParserApi ParserSoft SpecPrint FlattenProofs PrintProofs PrintExact PrintRange SpecReading ReadTokens ReadComplete.
Import ListNotations.
Open Scope list_scope.

Section WithX.
Variable X : ext.
Notation T1 := (parse_type1 X).
Notation G := (parse_group X).
Notation choice_end := SpecReading.choice_end.
Notation dead := (PrintRange.dead T1 G).

(** * Ends that lead nowhere *)
Lemma starts_dec l i : starts l i \/ ~ starts l i.
Proof. destruct i as [|c i]; [right; intros []|]. cbn. destruct (in_dec N.eq_dec c l); auto. Qed.
Lemma fail_soft {A B} (p : parser A) (f : A -> B + parse_error) i : soft (map_res_fail p f i) -> soft (p i).
Proof. intros H. apply bind_soft in H. destruct H as [H|(a & r & _ & [e E])]; auto. destruct (f a); discriminate. Qed.
Lemma map_soft {A B} (f : A -> B) p i : soft (mapp f p i) -> soft (p i).
Proof. intros H. apply bind_soft in H. destruct H as [H|(a & r & _ & [e E])]; auto. discriminate. Qed.
Lemma quoted_soft {B} s (q : parser B) j : soft (delimited (tag s) p_bchar q (txt s ++ j)) -> (forall m, soft (q m) -> soft (tag "'" m)) ->
  soft (delimited (tag "'") p_bchar (tag "'") (txt "'" ++ j)).
Proof.
  intros H Q. unfold delimited, bindp at 1. rewrite (tag_run "'"). unfold delimited in H. apply bind_soft in H. destruct H as [[e H]|(a & r & H & H')]; [rewrite tag_run in H; discriminate|].
  rewrite tag_run in H. inversion H; subst. apply bind_soft in H'. destruct H' as [H'|(b & m & E & H')]; [apply soft_bind; auto|].
  unfold bindp at 1. rewrite E. apply bind_soft in H'. destruct H' as [H'|(c & m' & _ & [e E'])]; [apply soft_bind; auto|discriminate].
Qed.
Lemma quote_soft i j : (i = txt "h'" ++ j \/ i = txt "b64'" ++ j) -> soft (p_value X i) -> soft (p_value X (txt "'" ++ j)).
Proof.
  intros E S. apply or_soft_inv in S. destruct S as [_ S]. apply or_soft_inv in S. destruct S as [_ S]. apply map_soft in S.
  apply or_soft_inv in S. destruct S as [_ S]. apply or_soft_inv in S. destruct S as [Sh Sb]. apply fail_soft in Sh, Sb.
  assert (Q : soft (delimited (tag "'") p_bchar (tag "'") (txt "'" ++ j))).
  { destruct E as [-> | ->]; [apply (quoted_soft "h'" (tag "'")); auto|]. apply (quoted_soft "b64'" (charp 0x27)); auto.
    intros m [e E]. eapply soft_tag_head; [reflexivity|]. intros Hd. destruct m as [|c m]; [destruct Hd|]. cbn in Hd. subst c. rewrite charp_run in E. discriminate. }
  change (txt "'" ++ j) with (0x27%N :: j) in *.
  apply soft_or; [apply not_number; chars|]. apply soft_or; [apply not_text; chars|]. apply soft_map.
  repeat apply soft_or; [apply soft_map, soft_bind; auto|apply soft_bind, soft_bind; apply soft_tag; discriminate..].
Qed.
Definition mark2 (k : text) : Prop := starts [0x3c%N] k \/ starts [0x27%N] k /\ soft (p_value X k).
Definition mark1 (k : text) : Prop := mark2 k \/ starts [0x2e%N] k.
Definition markt (k : text) : Prop := mark1 k \/ starts [0x2f%N] k /\ forall j, k <> txt "//" ++ j.
Definition markv (k : text) : Prop := markt k \/ starts [0x3a; 0x3d; 0x5e]%N k.
Definition after (P : text -> Prop) (r : text) : Prop := exists k, skip r k /\ P k.
Lemma after_weak (P Q : text -> Prop) r : (forall k, P k -> Q k) -> after P r -> after Q r.
Proof. intros H (k & S & K). exists k. auto. Qed.
Lemma mark2_solid k : mark2 k -> skip k k.
Proof. intros [H|[H _]]; apply skip_solid; destruct k as [|c k]; try destruct H as []; cbn in *; subst; chars. Qed.
Lemma mark2_after r : mark2 r -> after mark1 r.
Proof. intros H. exists r. split; [apply mark2_solid; auto|left; auto]. Qed.
Definition badc (c : N) : Prop := In c [0x3c; 0x27; 0x2e; 0x2f; 0x3a; 0x3d; 0x5e]%N.
Lemma markv_head k : markv k -> is_head badc k /\ soft (p_value X k) /\ forall j, k <> txt "//" ++ j.
Proof.
  assert (V : forall c j, badc c -> c <> 0x27%N -> soft (p_value X (c :: j))).
  { intros c j H N. unfold badc in H. apply soft_value; [cbn; chars| |]; intros q E; inversion E; subst; chars. }
  intros H. destruct k as [|c k]. { exfalso. destruct H as [[[[[]|[[] _]]|[]]|[[] _]]|[]]. }
  destruct H as [[[[H|[H S]]|H]|[H S]]|H]; cbn in H.
  - destruct H as [<-|[]]. split; [cbn; auto|]. split; [apply V; [cbn; auto|lia]|discriminate].
  - destruct H as [<-|[]]. split; [cbn; auto|]. split; [auto|discriminate].
  - destruct H as [<-|[]]. split; [cbn; auto|]. split; [apply V; [cbn; auto|lia]|discriminate].
  - destruct H as [<-|[]]. split; [cbn; auto 10|]. split; [apply V; [cbn; auto|lia]|auto].
  - assert (B : badc c) by (unfold badc; cbn; tauto). split; [auto|]. split; [apply V; auto; lia|]. intros j E. inversion E; subst. lia.
Qed.
Lemma bad_t1 k : is_head badc k -> soft (p_value X k) -> soft (T1 k).
Proof. intros B V. apply soft_type1, soft_type2; auto. destruct k as [|c k]; [auto|]. cbn in *. unfold badc in B. chars. Qed.
Lemma markv_dead k : markv k -> dead k.
Proof.
  intros H. destruct (markv_head k H) as (B & V & N). pose proof (bad_t1 k B V) as T. destruct k as [|c k]; [destruct B|]. cbn in B. unfold badc in B.
  split; [|split; [cbn; chars|split; [auto|]]].
  - exists c, k. split; auto. split; [apply ws_solid; cbn; chars|]. split; chars.
  - intros e m E. assert (S : soft (p_grpent T1 G (c :: k))).
    { apply soft_grpent; [apply soft_occur; cbn; chars|]. apply soft_grpent_val; auto. cbn. chars. }
    destruct S as [x S]. congruence.
Qed.
Lemma markt_next k c : markt k -> starts [c] k -> In c [0x3c; 0x27; 0x2e; 0x2f]%N.
Proof.
  intros H S. destruct k as [|d k]; [destruct S|]. destruct S as [->|[]]. destruct H as [[[H|[H _]]|H]|[H _]]; destruct H as [->|[]]; cbn; auto.
Qed.
Lemma mark1_next k c : mark1 k -> starts [c] k -> In c [0x3c; 0x27; 0x2e]%N.
Proof.
  intros H S. destruct k as [|d k]; [destruct S|]. destruct S as [->|[]]. destruct H as [[H|[H _]]|H]; destruct H as [->|[]]; cbn; auto.
Qed.

(** * Readings, unless what follows leads nowhere *)
Definition R2 (i : text) (t : type2) (r : text) : Prop := u_type2 X i t r \/ mark2 r.
Definition R1 (i : text) (t : type1) (r : text) : Prop := u_type1 X i t r \/ after mark1 r.
Definition Rt (i : text) (t : list type1) (r : text) : Prop := u_type X i t r \/ after markt r.
Definition Rv (i : text) (v : grpent_val) (r : text) : Prop := (exists r0, u_val X i v r0 /\ left_of r0 r) \/ after dead r.
Definition Re (i : text) (e : grpent) (r : text) : Prop := (exists r0, u_grpent X i e r0 /\ left_of r0 r) \/ after dead r.
Definition Rg (i : text) (g : list (list grpent)) (r : text) : Prop := skip r r /\ (starts [0x29; 0x5d; 0x7d]%N r -> u_group X i g r).

Lemma r1_next i t r k c : R1 i t r -> skip r k -> starts [c] k -> ~ In c [0x3c; 0x27; 0x2e]%N -> u_type1 X i t r.
Proof. intros [H|(k' & S & M)] S' C N; auto. rewrite (skip_fun _ _ _ S' S) in M. destruct (N (mark1_next _ _ M C)). Qed.
Lemma ws_skip i w r : p_ws i = Done w r -> skip i r. Proof. intros H. apply skip_iff. eauto. Qed.
Lemma skip_len i r : skip i r -> List.length r <= List.length i.
Proof. intros H. apply skip_ws in H. destruct H as (w & H). apply shrinks_ws in H. auto. Qed.
Lemma pair_tag s i x r : pairp (tag s) p_ws i = Done x r -> opens s i r.
Proof.
  intros H. apply pair_done in H. destruct H as (m & H & E). apply tag_done in H. destruct H as [_ ->]. exists m. split; auto. eapply ws_skip; eauto.
Qed.
Lemma opens_len s i r : opens s i r -> List.length r + List.length (txt s) <= List.length i.
Proof. intros (k & -> & S). apply skip_len in S. rewrite app_length. lia. Qed.
Lemma in_inv {A} (o c : N) so sc (p : parser A) i a r : txt so = [o] -> txt sc = [c] -> p_in o c p i = Done a r ->
  exists j k, opens so i j /\ p j = Done a k /\ closes sc k r /\ skip j j.
Proof.
  intros Eo Ec H. apply delimited_done in H. destruct H as (x & m & m' & y & H & E & F). apply char_done in H. apply char_done in F.
  destruct H as [-> ->]. destruct F as [-> ->]. apply delimited_done in E. destruct E as (w & k & k' & w' & H & E & F).
  apply ws_skip in H, F. exists k, k'. split; [exists m; rewrite Eo; auto|]. split; auto. split; [exists (c :: r); rewrite Ec; auto|]. eapply skip_idem; eauto.
Qed.

Section Step.
Variable n : nat.
Hypothesis IT : forall i t r, List.length i < n -> T1 i = Done t r -> R1 i t r.
Hypothesis IG : forall i g r, List.length i < n -> skip i i -> G i = Done g r -> Rg i g r.

Lemma args_exact i x m l q r : terminated T1 p_ws i = Done x m -> sreps (pairp (tag ",") p_ws) (terminated T1 p_ws) m l q -> q = txt ">" ++ r ->
  List.length i < n -> u_args X i (x :: l) r.
Proof.
  intros H R. revert i x H. induction R as [j e E|j b m e E L F|j b m a k l q E L F R IH]; intros i x H -> Ln;
    apply terminated_done in H; destruct H as (j' & w & H & W); apply ws_skip in W.
  - eapply ua_last; [eapply r1_next; [apply IT; eauto|exact W|left; reflexivity|cbn; lia]|]. exists (txt ">" ++ r). auto.
  - apply pair_tag in E. destruct E as (z & E & _). discriminate.
  - apply pair_tag in E. assert (Le := opens_len _ _ _ E). pose proof (t1_len _ _ _ _ H) as L1. pose proof (skip_len _ _ W) as L2. cbn in Le.
    eapply ua_more; [eapply r1_next; [apply IT; eauto|exact W| |]| |apply IH; eauto; lia].
    + destruct E as (z & -> & _). left; reflexivity.
    + cbn. lia.
    + exists j. auto.
Qed.
Lemma name_exact i nm a r : p_name_generic T1 i = Done (nm, a) r -> List.length i <= n -> u_name X i nm a r \/ a = [] /\ starts [0x3c%N] r.
Proof.
  intros H Ln. apply map_done in H. destruct H as ([n' o] & H & [= -> ->]). apply pair_done in H. destruct H as (m & H & E). cbn [fst snd] in *.
  pose proof (eats_ident _ _ _ H) as Lm. apply name_iff in H. apply opt_done in E. destruct o as [l|].
  - left. apply delimited_done in E. destruct E as (x & j & k & y & E & F & K). apply pair_tag in E. pose proof (opens_len _ _ _ E) as Le. cbn in Le.
    apply tag_done in K. destruct K as [_ ->]. apply sep_done in F; [|auto with nom|apply shrinks_terminated; [apply shrinks_t1|auto with nom]].
    destruct F as (b & l' & m' & -> & F & R). eapply un_args; eauto. eapply args_exact; eauto. lia.
  - destruct E as [-> _]. destruct (starts_dec [0x3c%N] m) as [S|S]; auto. left. constructor; auto.
Qed.
Lemma name_starts i nm a r : u_name X i nm a r -> starts_bytes i -> soft (p_value X i) -> mark2 r.
Proof.
  intros H (j & E) V. right.
  assert (Q : longest is_ident i (if match i with 0x68%N :: _ => true | _ => false end then txt "h" else txt "b64") (txt "'" ++ j)).
  { apply name_iff. destruct E as [-> | ->].
    - apply (ident_run (txt "h") (txt "'" ++ j)); [apply (id_start 0x68); chars|]. apply (id_stop_head 0x27); chars.
    - apply (ident_run (txt "b64") (txt "'" ++ j)); [|apply (id_stop_head 0x27); chars].
      apply (id_more (txt "b6") [] 0x34); [apply (id_more (txt "b") [] 0x36); [apply (id_start 0x62)| |]| |]; auto; chars. }
  destruct H as [i nm r L N|i nm k k' a r L O _]; destruct (longest_fun _ _ _ _ _ _ Q L) as [_ ->].
  - split; [left; reflexivity|]. eapply quote_soft; eauto.
  - destruct O as (z & Ez & _). discriminate.
Qed.
Lemma group_in_exact (o c : N) so sc i g r : txt so = [o] -> txt sc = [c] -> In c [0x29; 0x5d; 0x7d]%N -> p_in o c G i = Done g r -> List.length i <= n ->
  exists j, opens so i j /\ u_group X j g (txt sc ++ r).
Proof.
  intros Eo Ec C H Ln. apply (in_inv o c so sc) in H; auto. destruct H as (j & k & O & E & (k' & S & ->) & Sj). exists j. split; auto.
  pose proof (opens_len _ _ _ O) as Le. rewrite Eo in Le. cbn in Le. apply IG in E; auto; [|lia]. destruct E as [Sk E]. rewrite (skip_fun _ _ _ S Sk) in *.
  apply E. rewrite Ec. exact C.
Qed.
Lemma ty_exact_gen m : (forall i t r, List.length i <= m -> T1 i = Done t r -> R1 i t r) -> forall i t r, List.length i <= m -> p_ty T1 i = Done t r -> Rt i t r.
Proof.
  intros HT i t r Ln H. apply sep_done in H; [|auto with nom|apply shrinks_t1]. destruct H as (a & l & j & -> & H & R). revert i a H Ln.
  assert (Fin : forall i a r, T1 i = Done a r -> List.length i <= m -> type_end r \/ after markt r -> Rt i [a] r).
  { intros i a r' H Ln [E|E]; [|right; auto]. apply HT in H; auto. destruct H as [H|H]; [left; constructor; auto|right]. revert H. apply after_weak. left; auto. }
  induction R as [j e E|j b k e E L F|j b k x j' l r E L F R IH]; intros i a H Ln.
  - apply Fin; auto. left. destruct (skip_total j) as [k S]. exists k. split; auto. left. intros Q.
    apply skip_ws in S. destruct S as (w & S). destruct k as [|c k]; [destruct Q|]. destruct Q as [<-|[]]. 
    destruct (ws_total k) as (w' & k' & W). unfold p_slash in E. rewrite (del_run p_ws (tag "/") p_ws j w (0x2f%N :: k) (txt "/") k w' k' S (tag_run "/" k) W) in E. discriminate.
  - apply Fin; auto. apply delimited_done in E. destruct E as (w & q & q' & w' & W & E & W'). apply ws_skip in W, W'. apply tag_done in E. destruct E as [_ ->].
    destruct (starts_dec [0x2f%N] q') as [S|S].
    + left. exists (txt "/" ++ q'). split; auto. right. destruct q' as [|c q']; [destruct S|]. destruct S as [<-|[]]. exists q'. reflexivity.
    + right. exists (txt "/" ++ q'). split; auto. right. split; [left; reflexivity|]. intros z Q. inversion Q; subst. apply S. left; reflexivity.
  - pose proof (slash_len _ _ _ E) as Ls. pose proof (t1_len _ _ _ _ H) as Lj. assert (Lk : List.length k <= List.length j).
    { assert (Sp : shrinks p_slash) by auto with nom. eapply Sp; eauto. }
    apply delimited_done in E. destruct E as (w & q & q' & w' & W & E & W'). apply ws_skip in W, W'. apply tag_done in E. destruct E as [_ ->].
    destruct (IH k x F ltac:(lia)) as [U|U]; [left|right; auto]. eapply ut_more; [eapply r1_next; [apply HT; eauto|exact W|left; reflexivity|cbn; lia]| |eauto].
    exists (txt "/" ++ q'). split; auto. exists q'. auto.
Qed.
Lemma ty_lt i t r : List.length i < n -> p_ty T1 i = Done t r -> Rt i t r.
Proof. intros L. apply (ty_exact_gen (n - 1)); [|lia]. intros. apply IT; auto. lia. Qed.
Lemma type2_exact i t r : List.length i <= n -> p_type2 X T1 G i = Done t r -> R2 i t r.
Proof.
  intros Ln H. unfold p_type2 in H.
  apply or_done in H. destruct H as [H|[V H]].
  { apply map_done in H. destruct H as (v & H & ->). left. constructor. apply value_iff; auto. }
  apply map_soft in V.
  apply or_done in H. destruct H as [H|[_ H]].
  { apply map_done in H. destruct H as ([nm a] & H & ->). cbn [fst snd]. apply name_exact in H; auto. destruct H as [H|[_ H]]; [|right; left; auto].
    assert (D : starts_bytes i \/ ~ starts_bytes i).
    { unfold starts_bytes. destruct (strip (txt "h'") i) as [j|] eqn:E1; [left; apply strip_app in E1; eauto|].
      destruct (strip (txt "b64'") i) as [j|] eqn:E2; [left; apply strip_app in E2; eauto|].
      right. intros (j & [Q|Q]); apply strip_app in Q; congruence. }
    destruct D as [D|D]; [right; eapply name_starts; eauto|left; constructor; auto]. }
  apply or_done in H. destruct H as [H|[_ H]].
  { apply map_done in H. destruct H as (l & H & ->). apply (in_inv _ _ "(" ")") in H; auto. destruct H as (j & k & O & E & C & _).
    pose proof (opens_len _ _ _ O) as Le. cbn in Le. apply ty_lt in E; [|lia]. left. eapply u2_paren; eauto. destruct E as [E|(k' & S & M)]; auto.
    exfalso. destruct C as (k2 & S2 & ->). rewrite (skip_fun _ _ _ S2 S) in M. pose proof (markt_next _ 0x29%N M (or_introl eq_refl)) as Q. cbn in Q. lia. }
  apply or_done in H. destruct H as [H|[_ H]].
  { apply map_done in H. destruct H as (l & H & ->). apply (group_in_exact _ _ "{" "}") in H; auto; [|cbn; auto]. destruct H as (j & O & H). left. eapply u2_map; eauto. }
  apply or_done in H. destruct H as [H|[_ H]].
  { apply map_done in H. destruct H as (l & H & ->). apply (group_in_exact _ _ "[" "]") in H; auto; [|cbn; auto]. destruct H as (j & O & H). left. eapply u2_array; eauto. }
  apply or_done in H. destruct H as [H|[_ H]].
  { apply map_done in H. destruct H as ([nm a] & H & ->). cbn [fst snd]. apply preceded_done in H. destruct H as (x & m & H & E). apply tag_done in H. destruct H as [_ ->].
    apply preceded_done in E. destruct E as (w & k & W & E). apply ws_skip in W. pose proof (skip_len _ _ W) as Lw. cbn in Ln. apply name_exact in E; [|lia].
    destruct E as [E|[_ E]]; [left; eapply u2_unwrap; eauto; exists m; auto|right; left; auto]. }
  apply or_done in H. destruct H as [H|[_ H]].
  { apply map_done in H. destruct H as (l & H & ->). apply preceded_done in H. destruct H as (x & m & H & E). apply tag_done in H. destruct H as [_ ->].
    apply preceded_done in E. destruct E as (w & k & W & E). apply ws_skip in W. pose proof (skip_len _ _ W) as Lw. cbn in Ln.
    apply (group_in_exact _ _ "(" ")") in E; auto; [|cbn; auto|lia]. destruct E as (j & O & E). left. eapply u2_choice_inline; eauto. exists m; auto. }
  apply map_done in H. destruct H as ([nm a] & H & ->). cbn [fst snd]. apply preceded_done in H. destruct H as (x & m & H & E). apply tag_done in H. destruct H as [_ ->].
  apply preceded_done in E. destruct E as (w & k & W & E). apply ws_skip in W. pose proof (skip_len _ _ W) as Lw. cbn in Ln. apply name_exact in E; [|lia].
  destruct E as [E|[_ E]]; [left; eapply u2_choice; eauto; exists m; auto|right; left; auto].
Qed.

(** ** Types with a range or control operator *)
Lemma roc_inv m op t r : p_range_or_control X T1 G m = Done (op, t) r ->
  exists l k, skip l k /\ p_type2 X T1 G k = Done t r /\
    ((exists incl, range_op incl m l /\ op = (if incl then txt ".." else txt "...")) \/ exists k', m = txt "." ++ k' /\ longest is_ident k' op l).
Proof.
  intros H. apply pair_done in H. destruct H as (l & H & E). cbn [fst snd] in *. apply preceded_done in E. destruct E as (w & k & W & E). apply ws_skip in W.
  exists l, k. split; auto. split; auto. apply or_done in H. destruct H as [H|[S H]].
  { apply tag_done in H. destruct H as [-> ->]. left. exists false. cbn. auto. }
  apply or_done in H. destruct H as [H|[_ H]].
  { apply tag_done in H. destruct H as [-> ->]. left. exists true. cbn. split; auto. split; auto. intros Q. destruct l as [|c l]; [destruct Q|]. destruct Q as [<-|[]].
    destruct S as [e S]. change (txt ".." ++ 0x2e%N :: l) with (txt "..." ++ l) in S. rewrite (tag_run "...") in S. discriminate. }
  apply preceded_done in H. destruct H as (x & k' & H & F). apply tag_done in H. destruct H as [_ ->]. right. exists k'. split; auto. apply name_iff; auto.
Qed.
Lemma roc_starts m op t r : p_range_or_control X T1 G m = Done (op, t) r -> starts [0x2e%N] m.
Proof.
  intros H. apply roc_inv in H. destruct H as (l & k & _ & _ & [(incl & R & _)|(k' & -> & _)]); [|left; reflexivity].
  destruct incl; cbn in R; [destruct R as [-> _]|subst]; left; reflexivity.
Qed.
Lemma mark2_dot j k : mark2 j -> skip j k -> ~ starts [0x2e%N] k.
Proof.
  intros M S D. rewrite (skip_fun _ _ _ (mark2_solid _ M) S) in D. destruct j as [|c j]; [destruct D|]. destruct D as [<-|[]].
  destruct M as [[M|[]]|[[M|[]] _]]; discriminate.
Qed.
Lemma ident_not_dots s : is_ident s -> text_eqb s (txt "..") = false /\ text_eqb s (txt "...") = false.
Proof.
  intros H. apply ident_head in H. split; destruct (text_eqb s _) eqn:E; auto; apply text_eqb_eq in E; subst; cbn in H; chars.
Qed.
Lemma type1_exact i t r : List.length i <= n -> T1 i = Done t r -> R1 i t r.
Proof.
  intros Ln H. rewrite type1_eq in H. apply map_done in H. destruct H as ([t2 o] & H & ->). apply pair_done in H. destruct H as (j & H & E). cbn [fst snd] in *.
  assert (Lj : List.length j < List.length i) by (eapply (eats_type2 X T1 G); [apply shrinks_t1|apply shrinks_group|exact H]).
  apply type2_exact in H; auto. apply opt_done in E. destruct o as [[op u]|].
  - apply preceded_done in E. destruct E as (w & m & W & E). apply ws_skip in W. pose proof (roc_starts _ _ _ _ E) as D.
    destruct H as [H|M]; [|destruct (mark2_dot _ _ M W D)]. pose proof (skip_len _ _ W) as Lm.
    apply roc_inv in E. destruct E as (l & k & S & F & E). pose proof (skip_len _ _ S) as Lk.
    assert (Ll : List.length l <= List.length m).
    { destruct E as [(incl & E & _)|(k' & -> & (_ & -> & _))]; [destruct incl; cbn in E; [destruct E as [-> _]|subst]; cbn; lia|rewrite !app_length; lia]. }
    apply type2_exact in F; [|lia]. destruct F as [F|M]; [left|right; apply mark2_after; auto].
    destruct E as [(incl & E & ->)|(k' & -> & E)].
    + destruct incl; cbn [text_eqb]; [rewrite (proj2 (text_eqb_eq (txt "..") (txt "..")) eq_refl)|
        replace (text_eqb (txt "...") (txt "..")) with false by reflexivity; rewrite (proj2 (text_eqb_eq (txt "...") (txt "...")) eq_refl)]; eapply u1_range; eauto.
    + destruct (ident_not_dots op) as [-> ->]; [apply E|]. eapply u1_control; eauto.
  - destruct E as [-> _]. destruct H as [H|M]; [|right; apply mark2_after; auto]. destruct (skip_total j) as [k S]. destruct (starts_dec [0x2e%N] k) as [D|D].
    + right. exists k. split; auto. right. auto.
    + left. constructor; auto. exists k. auto.
Qed.
Lemma ty_exact i t r : List.length i <= n -> p_ty T1 i = Done t r -> Rt i t r.
Proof. apply ty_exact_gen, type1_exact. Qed.

(** ** Group entries *)
Lemma left_after P r0 r : left_of r0 r -> after P r0 -> after P r.
Proof. intros L (k & S & K). exists k. split; auto. eapply left_skip; eauto. Qed.
Lemma after_dead r : after markv r -> after dead r.
Proof. apply after_weak. intros k. apply markv_dead. Qed.
Lemma plain_end i t r0 r : Rt i t r0 -> left_of r0 r -> Rv i (GMember None t) r.
Proof.
  intros H L. destruct H as [H|H]; [|right; apply (left_after _ _ _ L), after_dead; revert H; apply after_weak; left; auto].
  destruct (skip_total r0) as [k S]. destruct (starts_dec [0x3a; 0x3d; 0x5e]%N k) as [D|D].
  - right. apply (left_after _ _ _ L), after_dead. exists k. split; auto. right. auto.
  - left. exists r0. split; auto. apply uv_type; auto. exists k. auto.
Qed.
Lemma slash_end j : soft (preceded p_slash T1 j) -> type_end j \/ after markt j.
Proof.
  intros H. destruct (skip_total j) as [k S]. destruct (starts_dec [0x2f%N] k) as [D|D]; [|left; exists k; auto].
  destruct k as [|c k]; [destruct D|]. destruct D as [<-|[]]. destruct (starts_dec [0x2f%N] k) as [D|D].
  - left. exists (0x2f%N :: k). split; auto. right. destruct k as [|c k]; [destruct D|]. destruct D as [<-|[]]. exists k. reflexivity.
  - right. exists (0x2f%N :: k). split; auto. right. split; [left; reflexivity|]. intros z Q. inversion Q; subst. apply D. left; reflexivity.
Qed.
Lemma more_exact j l r : reps (preceded p_slash T1) j l r -> forall i a, T1 i = Done a j -> List.length i <= n -> Rt i (a :: l) r.
Proof.
  induction 1 as [j e E|j x k l r E L R IH]; intros i a H Ln.
  - apply type1_exact in H; auto. destruct (slash_end j ltac:(eexists; eauto)) as [Q|Q]; [|right; auto].
    destruct H as [H|H]; [left; constructor; auto|right]. revert H. apply after_weak. left; auto.
  - apply preceded_done in E. destruct E as (y & q & E & F). pose proof (t1_len _ _ _ _ H) as L1. assert (Sp : shrinks p_slash) by auto with nom. pose proof (Sp _ _ _ E) as L2.
    destruct (IH q x F ltac:(lia)) as [U|U]; [left|right; auto].
    apply delimited_done in E. destruct E as (w & q1 & q' & w' & W & E & W'). apply ws_skip in W, W'. apply tag_done in E. destruct E as [_ ->].
    eapply ut_more; [eapply r1_next; [apply type1_exact; eauto|exact W|left; reflexivity|cbn; lia]| |eauto]. exists (txt "/" ++ q'). split; auto. exists q'. auto.
Qed.
Lemma plain_exact i a j k v r : T1 i = Done a j -> skip j k -> List.length i <= n -> member_plain T1 a k = Done v r -> Rv i v r.
Proof.
  intros H S Ln E. unfold member_plain in E. destruct (p_more_choices T1 k) as [l r'| | | |] eqn:M; inversion E; subst. clear E.
  assert (Sh : shrinks (preceded p_slash T1)) by (apply shrinks_bind; [auto with nom|intros; apply shrinks_t1]).
  apply many0_done in M; auto. pose proof S as S0. apply skip_ws in S. destruct S as (w & S).
  assert (Eq : p_slash j = p_slash k) by (unfold p_slash, delimited, bindp at 1 4; rewrite S, (ws_idem _ _ _ S); reflexivity).
  assert (Eq2 : preceded p_slash T1 j = preceded p_slash T1 k) by (unfold preceded, bindp at 1 2; rewrite Eq; reflexivity).
  inversion M as [x e E|x b q l' r2 E Lq R]; subst.
  - apply (plain_end i [a] j); [|right; eauto]. eapply more_exact; eauto. eapply reps_nil. rewrite Eq2. eauto.
  - apply (plain_end i (a :: b :: l') r); [|left; auto]. apply (more_exact j); auto. apply reps_cons with q; auto; [rewrite Eq2; auto|].
    pose proof E as E'. apply preceded_done in E'. destruct E' as (y & q2 & E1 & E2). rewrite <- Eq in E1. pose proof (slash_len _ _ _ E1). apply t1_len in E2.
    assert (Sp : shrinks p_slash) by auto with nom. pose proof (Sp _ _ _ E1). lia.
Qed.
Lemma tail_val i k t r (mk : list type1 -> grpent_val) : List.length k <= n -> p_ty T1 k = Done t r ->
  (u_type X k t r -> u_val X i (mk t) r) -> Rv i (mk t) r.
Proof.
  intros Ln H Q. apply ty_exact in H; auto. destruct H as [H|H]; [left; exists r; split; auto; left; auto|].
  right. apply after_dead. revert H. apply after_weak. left; auto.
Qed.
Lemma arrow_exact i a j k v r : T1 i = Done a j -> skip j k -> List.length i <= n -> member_arrow T1 a k = Done v r -> Rv i v r.
Proof.
  intros H S Ln E. unfold member_arrow in E. destruct (p_arrow_tail T1 k) as [[b t] r'|e|e| |] eqn:A; try discriminate; try (eapply plain_exact; eauto; fail).
  cbn [fst snd] in E. inversion E; subst. clear E. apply map_done in A. destruct A as ([o t'] & A & Q). cbn [fst snd] in Q. injection Q as -> ->. apply pair_done in A. destruct A as (m & A & E). cbn [fst snd] in *. rename t' into t.
  apply preceded_done in E. destruct E as (x & m1 & E & F). apply tag_done in E. destruct E as [_ ->]. apply preceded_done in F. destruct F as (w & m2 & W & F). apply ws_skip in W.
  pose proof (t1_len _ _ _ _ H) as L1. pose proof (skip_len _ _ S) as L2. pose proof (skip_len _ _ W) as L3. apply opt_done in A. destruct o as [o|].
  - apply terminated_done in A. destruct A as (q & w2 & A & W2). apply tag_done in A. destruct A as [_ ->]. apply ws_skip in W2. pose proof (skip_len _ _ W2) as L4.
    rewrite app_length in L4. cbn in L2, L4.
    apply (tail_val i m2 t r (fun t => GMember (Some (MKey (MKType1 a) true)) t)); auto; [lia|]. intros U.
    eapply uv_key_cut; [eapply r1_next; [apply type1_exact; eauto|exact S|left; reflexivity|cbn; lia]| | |exact U].
    + exists (txt "^" ++ q). split; auto. exists q. eauto.
    + exists m1. auto.
  - destruct A as [<- _]. cbn in L2.
    apply (tail_val i m2 t r (fun t => GMember (Some (MKey (MKType1 a) false)) t)); auto; [lia|]. intros U.
    eapply uv_key; [eapply r1_next; [apply type1_exact; eauto|exact S|left; reflexivity|cbn; lia]| |exact U].
    exists (txt "=>" ++ m1). split; auto. exists m1. auto.
Qed.
Lemma colon_exact i a j k v r : T1 i = Done a j -> skip j k -> List.length i <= n -> member_colon T1 a k = Done v r -> Rv i v r.
Proof.
  intros H S Ln E. unfold member_colon in E. destruct (p_memberkey_tail T1 k) as [t r'|e|e| |] eqn:A; try discriminate; try (eapply arrow_exact; eauto; fail).
  destruct (assemble_basic_member a t) as [[v'|]|] eqn:B; inversion E; subst. clear E. apply preceded_done in A. destruct A as (x & m & A & F). apply pair_tag in A.
  pose proof (t1_len _ _ _ _ H) as L1. pose proof (skip_len _ _ S) as L2. pose proof (opens_len _ _ _ A) as L3. cbn in L3.
  assert (U1 : u_type1 X i a j).
  { eapply r1_next; [apply type1_exact; eauto|exact S|destruct A as (z & -> & _); left; reflexivity|cbn; lia]. }
  assert (Sp : spaced ":" j m) by (exists k; auto).
  destruct a as [[vv|nm args| | | | | |]| |]; try discriminate.
  - inversion B; subst. apply (tail_val i m t r (fun t => GMember (Some (MKey (MKValue vv) true)) t)); auto; [lia|]. intros U.
    inversion U1 as [i' t2 r2 U2 _| |]; subst. inversion U2; subst. eapply uv_value; eauto.
  - destruct args as [|y args]; [|discriminate]. inversion B; subst. apply (tail_val i m t r (fun t => GMember (Some (MKey (MKBareword nm) true)) t)); auto; [lia|]. intros U.
    inversion U1 as [i' t2 r2 U2 _| |]; subst. inversion U2; subst. 
    match goal with N : u_name _ _ _ _ _ |- _ => inversion N; subst end; [eapply uv_bareword; eauto|].
    match goal with N : u_args _ _ _ _ |- _ => inversion N end.
Qed.
Lemma member_exact i v r : List.length i <= n -> p_grpent_member T1 i = Done v r -> Rv i v r.
Proof.
  intros Ln H. apply bind_done in H. destruct H as (a & k & H & E). apply terminated_done in H. destruct H as (j & w & H & W). apply ws_skip in W.
  destruct a as [[]| |]; first [eapply colon_exact; eauto; fail|eapply arrow_exact; eauto].
Qed.
Lemma lone_dec g : lone g \/ ~ lone g.
Proof.
  unfold lone. destruct g as [|[|[[|] [[|] t| |]] [|]] [|]]; try (right; intros (? & ?); discriminate). left. eauto.
Qed.
Lemma member_soft_paren i t r e : p_grpent_member T1 i = Soft e -> p_type2 X T1 G i = Done t r -> after dead r.
Proof.
  intros M H. assert (S : soft (p_grpent_member T1 i)) by (eexists; eauto). clear M. apply bind_soft in S. destruct S as [S|(a & k & E & [e2 S])].
  - exfalso. apply bind_soft in S. destruct S as [S|(a & q & _ & S)].
    + rewrite type1_eq in S. apply map_soft in S. apply bind_soft in S. destruct S as [[e' S]|(a & q & _ & S)]; [congruence|].
      apply bind_soft in S. destruct S as [S|(b & q' & _ & [e' S])]; [exact (opt_never _ _ S)|discriminate].
    + destruct (ws_total q) as (w & q' & W). destruct S as [e' S]. unfold bindp in S. rewrite W in S. discriminate.
  - apply terminated_done in E. destruct E as (j & w & E & W).
    assert (St : stuck T1 k) by (eapply (member_stuck X T1 T1 G (type1_eq X) a); [eapply ws_idem; eauto|destruct a as [[]| |]; exact S]).
    rewrite type1_eq in E. apply map_done in E. destruct E as ([t2 o] & E & _). apply pair_done in E. destruct E as (j0 & E & O). cbn [fst snd] in *.
    rewrite H in E. inversion E; subst. apply opt_done in O. destruct o as [[op u]|].
    + apply preceded_done in O. destruct O as (w2 & m & W2 & O). apply ws_skip in W2. apply roc_starts in O. apply after_dead. exists m. split; auto. left. left. right. auto.
    + destruct O as [-> _]. exists k. split; [eapply ws_skip; eauto|]. eapply (stuck_dead X T1 G T1 G (type1_eq X)); eauto.
Qed.
Lemma paren_type_run i j t k r : opens "(" i j -> p_ty T1 j = Done t k -> closes ")" k r -> p_type2 X T1 G i = Done (T2Paren t) r.
Proof.
  intros O H C. pose proof (opens_head "(" 0x28%N _ _ eq_refl O) as Hd. destruct i as [|c i]; [destruct Hd|]. cbn in Hd. subst c.
  unfold p_type2. rewrite or_soft; [rewrite or_soft; [apply or_run; eapply map_run; [|reflexivity]; eapply (in_reads 0x28 0x29 "(" ")"); eauto|]|].
  - apply soft_map, soft_bind, soft_bind, soft_ident. cbn. chars.
  - apply soft_map. apply soft_value; [cbn; chars|discriminate..].
Qed.
Lemma val_exact i v r : List.length i <= n -> p_grpent_val T1 G i = Done v r -> Rv i v r.
Proof.
  intros Ln H. apply or_done in H. destruct H as [H|[[e M] H]]; [apply member_exact; auto|].
  apply or_done in H. destruct H as [H|[_ H]]; apply map_done in H; destruct H as (g & H & ->).
  - right. destruct (groupname_dead X T1 G T1 G (type1_eq X) i g r e M H) as (w & k & W & D). exists k. split; auto. eapply ws_skip; eauto.
  - apply (group_in_exact 0x28 0x29 "(" ")") in H; auto; [|cbn; auto]. destruct H as (j & O & U). destruct (lone_dec g) as [[t ->]|N].
    2: { left. exists r. split; [|left; auto]. eapply uv_paren; eauto. }
    inversion U as [i' c r' Uc| i' c j' k' g' r' Uc _ Ug]; subst; [|inversion Ug]. inversion Uc as [|i' e' q k c r' Ue Uo Uc']; subst. inversion Uc'; subst.
    inversion Ue as [i' v q' No Uv|]; subst. inversion Uv as [i' t' q' Ut _| | | | | |]; subst. destruct Uo as [Uo|[Sk _]].
    + left. exists r. split; [|left; auto]. eapply uv_paren_type; eauto.
    + right. eapply member_soft_paren; eauto. eapply paren_type_run; [exact O|apply ty_reads, reads; exact Ut|]. exists (txt ")" ++ r). auto.
Qed.
Lemma grpent_exact i e r : List.length i <= n -> p_grpent T1 G i = Done e r -> Re i e r.
Proof.
  intros Ln H. apply map_done in H. destruct H as ([o v] & H & ->). apply pair_done in H. destruct H as (m & H & E). cbn [fst snd] in *. apply opt_done in H. destruct o as [o|].
  - apply terminated_done in H. destruct H as (k & w & H & W). apply ws_skip in W. pose proof (eats_occur _ _ _ H) as L1. pose proof (skip_len _ _ W) as L2.
    apply occur_iff in H. apply val_exact in E; [|lia]. destruct E as [(r0 & U & L)|E]; [left|right; auto]. exists r0. split; auto. eapply ue_occur; eauto.
  - destruct H as [-> H]. apply val_exact in E; auto. destruct E as [(r0 & U & L)|E]; [left|right; auto]. exists r0. split; auto. apply ue_plain; auto.
    apply no_occur_iff. destruct H as [x H]. assert (S : soft (terminated p_occur p_ws i)) by (eexists; eauto). apply bind_soft in S. destruct S as [S|(a & q & _ & [e' S])]; auto.
    destruct (ws_total q) as (w & q' & W). unfold bindp in S. rewrite W in S. discriminate.
Qed.
Lemma optcom_exact j r' u k : p_optcom r' = Done u k -> left_of j r' -> u_optcom j k /\ skip k k.
Proof.
  intros H L. apply map_done in H. destruct H as ([w o] & H & _). apply pair_done in H. destruct H as (m & H & E). cbn [fst snd] in *.
  assert (S : skip j m).
  { apply ws_skip in H. destruct L as [-> | [w' L]]; auto. apply ws_skip in L. rewrite <- (skip_back _ _ _ L H). auto. }
  apply opt_done in E. destruct o as [o|].
  - apply pair_tag in E. split; [left; exists m; auto|]. destruct E as (z & _ & E). eapply skip_idem; eauto.
  - destruct E as [-> E]. pose proof (skip_idem _ _ S) as Sk. split; [right|auto]. split; auto. intros D. destruct m as [|c m]; [destruct D|]. destruct D as [<-|[]].
    destruct E as [x E]. unfold pairp, bindp at 1 in E. change (0x2c%N :: m) with (txt "," ++ m) in E. rewrite (tag_run ",") in E.
    destruct (ws_total m) as (w2 & q & W). unfold bindp in E. rewrite W in E. discriminate.
Qed.
Lemma dead_end k : dead k -> ~ choice_end k.
Proof. intros ((c & j & -> & _ & N & _) & _ & Q & _) [E|(z & E)]; [exact (N E)|exact (Q z E)]. Qed.
Lemma after_left r : after dead r -> left_dead T1 G r.
Proof. intros (k & S & D). apply skip_ws in S. destruct S as (w & S). exists w, k. auto. Qed.
Lemma choice_exact i c r : List.length i <= n -> skip i i -> p_grpchoice T1 G i = Done c r -> skip r r /\ (choice_end r -> u_choice X i c r).
Proof.
  intros Ln S H. apply choice_reps in H. revert Ln S. induction H as [i e E|i a m l r E L R IH]; intros Ln S; [split; auto; intros; constructor; auto|].
  pose proof (eats_item X _ _ _ E) as Lm. apply terminated_done in E. destruct E as (k & u & E & O). apply grpent_exact in E; auto. destruct E as [(r0 & U & Lf)|D].
  - destruct (optcom_exact _ _ _ _ O Lf) as [Uo Sm]. destruct (IH ltac:(lia) Sm) as [Sr Q]. split; auto. intros C. eapply uc_cons; eauto.
  - pose proof (optcom_dead T1 G _ _ _ (after_left _ D) O) as Dm. inversion R as [x e' E'|x b q l' r2 E' Lq R']; subst.
    + split; [|intros C; destruct (dead_end _ Dm C)]. destruct Dm as ((c0 & j & Ej & W & _) & _). eapply ws_skip; eauto.
    + exfalso. apply terminated_done in E'. destruct E' as (k' & u' & E' & _). destruct Dm as (_ & _ & _ & Dm). exact (Dm _ _ E').
Qed.
Lemma group_exact i g r : List.length i <= n -> skip i i -> G i = Done g r -> Rg i g r.
Proof.
  intros Ln S H. rewrite group_eq in H. apply map_done in H. destruct H as ([c l] & H & ->). apply pair_done in H. destruct H as (m & H & E). cbn [fst snd] in *.
  assert (Sg : shrinks (p_grpchoice T1 G)) by (apply shrinks_grpchoice; [apply shrinks_t1|apply shrinks_group]).
  apply many0_done in E; [|apply shrinks_preceded; [auto with nom|auto]].
  revert i c H Ln S. induction E as [m e E|m b k l r E L R IH]; intros i c H Ln S; pose proof (Sg _ _ _ H) as Lm; apply choice_exact in H; auto; destruct H as [Sm H].
  - split; auto. intros C. constructor. apply H. left. auto.
  - apply preceded_done in E. destruct E as (x & q & E & F). apply delimited_done in E. destruct E as (w & q1 & q2 & w' & W & E & W'). apply ws_skip in W, W'.
    apply tag_done in E. destruct E as [_ ->]. rewrite (skip_fun _ _ _ W Sm) in *. pose proof (skip_len _ _ W') as L2. rewrite app_length in Lm.
    destruct (IH q b F ltac:(lia) ltac:(eapply skip_idem; eauto)) as [Sr Q]. split; auto. intros C. eapply ug_more; [apply H; right; eauto|exists q2; eauto|auto].
Qed.
End Step.

(** * Rules and schemas *)
Lemma exact n : (forall i t r, List.length i < n -> T1 i = Done t r -> R1 i t r) /\ (forall i g r, List.length i < n -> skip i i -> G i = Done g r -> Rg i g r).
Proof.
  induction n as [|n [IT IG]]; [split; intros; lia|]. split; intros; [apply (type1_exact n)|apply (group_exact n)]; auto; lia.
Qed.
Lemma ty_done i t r : p_ty T1 i = Done t r -> Rt i t r.
Proof. destruct (exact (List.length i)). apply ty_exact with (n := List.length i); auto. Qed.
Lemma grpent_done i e r : p_grpent T1 G i = Done e r -> Re i e r.
Proof. destruct (exact (List.length i)). apply grpent_exact with (n := List.length i); auto. Qed.
Lemma idents_exact i x m l q r : terminated p_ident p_ws i = Done x m -> sreps (pairp (tag ",") p_ws) (terminated p_ident p_ws) m l q -> q = txt ">" ++ r ->
  u_idents i (x :: l) r.
Proof.
  intros H R. revert i x H. induction R as [j e E|j b m e E L F|j b m a k l q E L F R IH]; intros i x H ->;
    apply terminated_done in H; destruct H as (j' & w & H & W); apply ws_skip in W; apply name_iff in H.
  - eapply ui_last; eauto. exists (txt ">" ++ r). auto.
  - apply pair_tag in E. destruct E as (z & E & _). discriminate.
  - apply pair_tag in E. eapply ui_more; eauto. exists j. auto.
Qed.
Lemma parms_exact i o r : opt p_generic_parm i = Done o r -> u_parms i (match o with Some l => l | None => [] end) r \/ starts [0x3c%N] r.
Proof.
  intros H. apply opt_done in H. destruct o as [l|].
  - left. apply delimited_done in H. destruct H as (x & j & k & y & H & F & K). apply pair_tag in H. apply tag_done in K. destruct K as [_ ->].
    apply sep_done in F; [|auto with nom|auto with nom]. destruct F as (b & l' & m' & -> & F & R). eapply up_some; eauto. eapply idents_exact; eauto.
  - destruct H as [-> _]. destruct (starts_dec [0x3c%N] i) as [D|D]; auto. left. constructor; auto.
Qed.
Lemma rule_exact i x r : p_rule T1 G i = Done x r -> (exists r0, u_rule X i x r0 /\ left_of r0 r) \/ after (blocked) r.
Proof.
  intros H. apply map_done in H. destruct H as ([[nm o] v] & H & ->). apply separated_pair_done in H. destruct H as (j & k & w & H & W & E). cbn [fst snd] in *.
  apply pair_done in H. destruct H as (m & H & F). cbn [fst snd] in *. apply name_iff in H. apply ws_skip in W.
  apply map_done in E. destruct E as ([y v'] & E & ->). apply separated_pair_done in E. destruct E as (q & q' & w' & E & W' & K). cbn [fst snd] in *.
  apply tag_done in E. destruct E as [_ ->]. apply ws_skip in W'. apply parms_exact in F.
  assert (Sp : spaced "=" j q') by (exists (txt "=" ++ q); split; auto; exists q; auto).
  destruct F as [F|F].
  2: { exfalso. assert (Sj : skip j j) by (apply skip_solid; destruct j as [|c j]; [destruct F|]; destruct F as [<-|[]]; cbn; chars).
       rewrite <- (skip_fun _ _ _ Sj W) in F. destruct F as [F|[]]; discriminate. }
  apply or_done in K. destruct K as [K|[Sf K]]; apply map_done in K; destruct K as (t & K & ->).
  - apply ty_done in K. destruct K as [K|K]; [left; exists r; split; [eapply ur_type; eauto|left; auto]|right].
    revert K. apply after_weak. intros z Z. apply (markv_dead z). left; auto.
  - assert (S1 : soft (T1 q')) by (apply ty_soft, (map_soft AssignType); auto). pose proof K as K0. apply grpent_done in K. destruct K as [(r0 & U & Lf)|D]; [left|right].
    2: { revert D. apply after_weak. intros z Z. apply Z. }
    exists r0. split; auto. eapply ur_group; eauto. clear U. apply map_done in K0. destruct K0 as ([oo vv] & K & ->). apply pair_done in K. destruct K as (q2 & K & K2). cbn [fst snd] in *.
    apply opt_done in K. destruct oo as [oo|].
    + cbn. apply terminated_done in K. destruct K as (q3 & w3 & K & _). apply occur_iff in K. intros D.
      destruct K as [| |i' r' B|i' lo j' hi r' B B' N]; try (cbn in D; chars).
      * inversion B; subst. cbn in D. chars.
      * inversion B as [|i2 n0 r2 (s & (Us & Es & _) & Un) Ln]; subst; [cbn in D; chars|]. destruct S1 as [e S1].
        change (txt "*" ++ j') with (0x2a%N :: j') in S1. rewrite (number_t1 X s n0) in S1 by auto. discriminate.
    + destruct K as [-> _]. destruct (val_not_soft X _ _ _ K2 S1) as [g ->]. exact Logic.I.
Qed.
Theorem cddl_exact i c : parse_cddl X i = Some (inl c) -> u_cddl X i c.
Proof.
  unfold parse_cddl. intros H. destruct (all_consuming _ i) as [c' r|e|e| |] eqn:E; inversion H; subst. clear H.
  apply all_done in E. destruct E as [E ->]. apply preceded_done in E. destruct E as (w & j & W & E). apply ws_skip in W.
  assert (Sh : shrinks (terminated (p_rule T1 G) p_ws)).
  { pose proof (eats_rule T1 G (eats_shrinks _ (eats_type1 X)) (shrinks_group X)). auto 10 with nom. }
  apply many1_done in E; auto. destruct E as (x & l & m & -> & E & R). split; [discriminate|]. exists j. split; auto. clear W.
  assert (Q : forall i l r, reps (terminated (p_rule T1 G) p_ws) i l r -> r = [] -> u_rules X i l /\ (forall c k, i = c :: k -> ~ EALPHA c -> False)).
  { clear. induction 1 as [i e E|i x k l r E L R IH]; intros ->; [split; [constructor|discriminate]|]. destruct (IH eq_refl) as [Ur Nb].
    apply terminated_done in E. destruct E as (j & w & E & W). apply ws_skip in W. split.
    - apply rule_exact in E. destruct E as [(r0 & U & Lf)|(k' & S & (c & q & -> & _ & _ & N))].
      + eapply us_rule; eauto. destruct Lf as [-> | [w' Lf]]; auto. apply ws_skip in Lf. rewrite <- (skip_back _ _ _ Lf W). auto.
      + exfalso. pose proof (skip_fun _ _ _ W S) as Q. eapply Nb; eauto.
    - intros c q -> N. apply map_done in E. destruct E as ([[nm o] v] & E & _). apply separated_pair_done in E.
      destruct E as (a1 & a2 & a3 & E & _). apply pair_done in E. destruct E as (a4 & E & _). apply ident_tok in E. destruct E as [J Ej].
      apply ident_head in J. cbn [fst snd] in *. destruct nm; [destruct J|]. inversion Ej; subst. exact (N J). }
  eapply (Q _ _ []); auto. eapply reps_cons; eauto. 
  assert (Ea : eats (terminated (p_rule T1 G) p_ws)).
  { apply eats_bind_l; [apply eats_rule; [apply shrinks_t1|apply shrinks_group]|intros; apply shrinks_bind; auto with nom]. }
  apply Ea in E. lia.
Qed.
Theorem cddl_iff i c : parse_cddl X i = Some (inl c) <-> u_cddl X i c.
Proof. split; [apply cddl_exact|apply cddl_reads]. Qed.
End WithX.

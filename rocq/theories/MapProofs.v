(** Struct-like and table-like maps. *)
From Coq Require Import List Bool ZArith NArith String Lia Arith.
From Verif Require Import Base Util Data Value Convert Ivt Scalar Validate Unfold Mono Total Fun
  ValueOrder SpecBase SpecReach SpecData ArrayInv MapInv ConvertProofs NoPanic CtxProofs ReachProofs LimitProofs
  ArrayProofs.
Import ListNotations.

Section Maps.
Variable X : ext.
Variable lk : lookup_context.
Variable c : ctx.

Notation acc := (accepts X lk c).

Lemma literal_accepts l v : acc (NLiteral l) v <-> v = literal_value l.
Proof.
  unfold accepts. rewrite val_eq. unfold validate_literal.
  assert (value_of_literal l = literal_value l) as -> by (destruct l; auto).
  split.
  - destruct (veqb v (literal_value l)) eqn:E; [|discriminate]. intros _. apply veqb_eq; auto.
  - intros ->. rewrite veqb_refl. auto.
Qed.

(** Looking for a key. *)
Lemma map_key_cases key m s : map_ok (WM m s) ->
  (exists k v, map_key X lk key (WM m s) c = Ok (k, v) /\ In (k, v) m /\ acc key k) \/
  (exists msg, map_key X lk key (WM m s) c = Err (EMismatch msg) /\ forall x, In x m -> ~ acc key (fst x)).
Proof.
  intros (So & En & _). cbn [wm_map] in *.
  assert (G : forall fin, (exists k v, searches (fun k => val X lk k key c) m (EMismatch fin) = Ok (k, v) /\ In (k, v) m /\ acc key k) \/
    (searches (fun k => val X lk k key c) m (EMismatch fin) = Err (EMismatch fin) /\ forall x, In x m -> ~ acc key (fst x))).
  { intros fin. clear So. induction m as [|[k v] m IH]; cbn [searches]; [right; auto|].
    inversion En as [|? ? Hk Hm]; subst. destruct (val X lk k key c) as [[]|e|] eqn:V.
    - left. exists k, v. cbn; auto.
    - destruct (IH Hm) as [(k' & v' & H1 & H2 & H3)|(H1 & H2)].
      + left. exists k', v'. cbn; auto.
      + right. split; auto. intros x [<-|Hx]; [|apply H2; auto]. unfold accepts; cbn. congruence.
    - destruct (val_nopanic X lk k key c (proj1 Hk) V). }
  unfold map_key. destruct key;
    try (match goal with |- context [mismatch ?t] => destruct (G t) as [(k & v & H)|(H1 & H2)] end;
         [left; exists k, v; exact H|right; eexists; split; [exact H1|exact H2]]).
  clear G. unfold map_search_literal, wm_peek_at. cbn [wm_map].
  assert (value_of_literal l = literal_value l) as -> by (destruct l; auto).
  destruct (bt_get (literal_value l) m) as [v|] eqn:G.
  - left. exists (literal_value l), v. split; [auto|split]; [apply bt_get_in; auto|]. apply literal_accepts. auto.
  - right. eexists. split; [reflexivity|]. intros [k v] Hx A. apply literal_accepts in A. cbn in A. subst.
    apply bt_get_none in G; auto. apply G. apply in_map_iff. exists (literal_value l, v). auto.
Qed.

Lemma map_key_literal l m s v : sorted m -> In (literal_value l, v) m ->
  map_key X lk (NLiteral l) (WM m s) c = Ok (literal_value l, v).
Proof.
  intros So H. apply bt_get_in in H; auto. cbn. unfold map_search_literal, wm_peek_at. cbn [wm_map].
  assert (value_of_literal l = literal_value l) as -> by (destruct l; auto). rewrite H. auto.
Qed.

Lemma remove_entry m s k v : sorted m -> In (k, v) m ->
  wm_remove k (WM m s) = Some (WM (snd (bt_remove k m)) (push [(k, v)] s)).
Proof.
  intros So H. apply bt_get_in in H; auto. unfold wm_remove. cbn [wm_map wm_snaps].
  pose proof (bt_remove_get m k) as G. rewrite H in G. destruct (bt_remove k m) as [o m']. cbn in G. subst.
  destruct s; auto.
Qed.
Lemma remove_ok m s k v : map_ok (WM m s) -> In (k, v) m -> map_ok (WM (snd (bt_remove k m)) (push [(k, v)] s)).
Proof.
  intros (So & En & Sn) H. cbn in *. split; [|split]; cbn.
  - apply bt_remove_sorted; auto.
  - rewrite Forall_forall in *. intros x Hx. apply bt_remove_in in Hx; auto. apply En. tauto.
  - rewrite Forall_forall in En. destruct s; cbn; auto. inversion Sn; subst. constructor; auto. apply Forall_app; auto.
Qed.
Lemma remove_length m k v : sorted m -> In (k, v) m ->
  List.length m = S (List.length (snd (bt_remove k m))).
Proof.
  intros So H. apply bt_get_in in H; auto. revert H. clear So.
  induction m as [|[k' v'] m IH]; cbn; [discriminate|].
  destruct (vcompare k k'); cbn; try discriminate; auto.
  intros H. apply IH in H. destruct (bt_remove k m). cbn in *. lia.
Qed.

(** Key-value members. *)
Lemma kv_cases key t cut m s : map_ok (WM m s) ->
  (exists msg, mval X lk (NKeyValue key t cut) (WM m s) c = (Err (EMismatch msg), WM m s) /\
     forall x, In x m -> ~ acc key (fst x)) \/
  (exists k v, map_key X lk key (WM m s) c = Ok (k, v) /\ In (k, v) m /\ acc key k /\
     ((acc t v /\ mval X lk (NKeyValue key t cut) (WM m s) c = (Ok tt, WM (snd (bt_remove k m)) (push [(k, v)] s))) \/
      (exists e, val X lk v t c = Err e /\ mval X lk (NKeyValue key t cut) (WM m s) c =
         (Err (match cut, e with true, EMismatch m => EMapCut m | _, _ => e end), WM m s)))).
Proof.
  intros Ok_. pose proof Ok_ as (So & En & _). cbn in So, En. rewrite mval_eq. unfold map_keyvalue.
  destruct (map_key_cases key m s Ok_) as [(k & v & K & I & A)|(msg & K & N)].
  - right. exists k, v. rewrite K. do 3 (split; [auto|]). unfold accepts.
    destruct (val X lk v t c) as [[]|e|] eqn:V.
    + left. rewrite (remove_entry _ _ _ _ So I). auto.
    + right. exists e. split; auto. destruct cut, e; auto.
    + rewrite Forall_forall in En. destruct (val_nopanic X lk v t c (proj2 (En _ I)) V).
  - left. exists msg. rewrite K. auto.
Qed.

(** ** Fields *)

Definition hard_fail (f : field) (m : list entry) : Prop :=
  (f_required f = true /\ forall v, ~ In (field_key f, v) m) \/
  (exists v, In (field_key f, v) m /\ rejected (val X lk v (f_type f) c) /\ (f_required f = true \/ f_cut f = true)).
Definition taken (f : field) (x : entry) : Prop := fst x = field_key f /\ acc (f_type f) (snd x).

Lemma field_cases f m s : map_ok (WM m s) -> (forall v, In (field_key f, v) m -> settled X lk c (f_type f) v) ->
  (hard_fail f m /\ exists e w msg, mval X lk (field_member f) (WM m s) c = (Err e, w) /\ erase_mapcut e = EMismatch msg) \/
  (~ hard_fail f m /\ (forall x, In x m -> ~ taken f x) /\ mval X lk (field_member f) (WM m s) c = (Ok tt, WM m s)) \/
  (~ hard_fail f m /\ exists v, In (field_key f, v) m /\ acc (f_type f) v /\
     mval X lk (field_member f) (WM m s) c = (Ok tt, WM (snd (bt_remove (field_key f) m)) (push [(field_key f, v)] s))).
Proof.
  intros Ok_ S. pose proof Ok_ as (So & En & _). cbn in So, En.
  destruct f as [l t req cut]. unfold field_member, hard_fail, taken, field_key in *. cbn [f_key f_type f_required f_cut] in *.
  destruct (kv_cases (NLiteral l) t cut m s Ok_) as [(msg & E & N)|(k & v & K & I & A & D)].
  - assert (N' : forall v, ~ In (literal_value l, v) m).
    { intros v I. apply (N _ I). apply literal_accepts. auto. }
    destruct req.
    + left. split; [left; auto|]. exists (EMismatch msg), (WM m s), msg. auto.
    + right. left. split; [|split].
      * intros [[H _]|(v & H & _)]; [discriminate|]. eapply N'; eauto.
      * intros [k v] H [Hk _]. cbn in Hk. subst. eapply N'; eauto.
      * rewrite mval_eq. unfold map_occur. cbn [bounds fst snd]. rewrite occ_eq, E. cbn. auto.
  - apply literal_accepts in A. subst k.
    assert (UN : forall v', In (literal_value l, v') m -> v' = v) by (intros; eapply sorted_unique; eauto).
    destruct D as [(A & E)|(e & V & E)].
    + right. right. split.
      * intros [[_ H]|(v' & H & (msg & R) & _)]; [eapply H; eauto|]. apply UN in H. subst. unfold accepts in A. congruence.
      * exists v. do 2 (split; [auto|]). destruct req; auto. rewrite mval_eq. unfold map_occur. cbn [bounds fst snd].
        rewrite occ_eq, E. cbn. auto.
    + destruct (S v I) as [A|(msg & R)]; [unfold accepts in A; congruence|].
      assert (e = EMismatch msg) as -> by congruence. clear V.
      destruct req.
      * left. split. { right. exists v. split; [auto|]. split; [exists msg; auto|auto]. }
        destruct cut; do 3 eexists; (split; [exact E|reflexivity]).
      * destruct cut.
        -- left. split. { right. exists v. split; [auto|]. split; [exists msg; auto|auto]. }
           exists (EMapCut msg), (WM m s), msg. rewrite mval_eq. unfold map_occur. cbn [bounds fst snd].
           rewrite occ_eq, E. cbn. auto.
        -- right. left. split; [|split].
           ++ intros [[H _]|(v' & _ & _ & [H|H])]; discriminate.
           ++ intros [k' v'] H [Hk Ha]. cbn in Hk, Ha. subst. apply UN in H. subst. unfold accepts in Ha. congruence.
           ++ rewrite mval_eq. unfold map_occur. cbn [bounds fst snd]. rewrite occ_eq, E. cbn. auto.
Qed.

Lemma fields_cases fs : NoDup (map field_key fs) -> forall m s, map_ok (WM m s) ->
  (forall f v, In f fs -> In (field_key f, v) m -> settled X lk c (f_type f) v) ->
  ((exists f, In f fs /\ hard_fail f m) /\
   forall rest, exists e w msg, seqs (mf X lk c) (map field_member fs ++ rest) (WM m s) = (Err e, w) /\ erase_mapcut e = EMismatch msg) \/
  ((forall f, In f fs -> ~ hard_fail f m) /\
   exists m' p, runs (mf X lk c) (map field_member fs) (WM m s) (WM m' (push p s)) /\ map_ok (WM m' (push p s)) /\
     forall x, In x m' <-> In x m /\ ~ exists f, In f fs /\ taken f x).
Proof.
  induction fs as [|f fs IH]; intros ND m s Ok_ S.
  - right. split; [contradiction|]. exists m, []. rewrite push_nil. split; [constructor|]. split; auto.
    intros x. split; [|tauto]. intros H; split; auto. intros (f & [] & _).
  - cbn [map] in ND. inversion ND as [|? ? Nin ND']; subst. cbn [map app].
    destruct (field_cases f m s Ok_ ltac:(intros; apply S; cbn; auto)) as [(HF & e & w & msg & E & M)|[(NF & NT & E)|(NF & v & I & A & E)]].
    + left. split; [exists f; cbn; auto|]. intros rest. cbn [seqs]. unfold mf at 1. rewrite E. eauto.
    + destruct (IH ND' m s Ok_ ltac:(intros; apply S; cbn; auto)) as [(( f' & I' & HF) & H)|(H & m' & p & R & Ok' & I')].
      * left. split; [exists f'; cbn; auto|]. intros rest. cbn [seqs]. unfold mf at 1. rewrite E. auto.
      * right. split. { intros f' [<-|Hf]; auto. }
        exists m', p. split; [econstructor; eauto|]. split; auto. intros x. rewrite I'. split.
        -- intros (Hx & N). split; auto. intros (f' & [<-|Hf] & T); [eapply NT; eauto|apply N; eauto].
        -- intros (Hx & N). split; auto. intros (f' & Hf & T). apply N. exists f'; cbn; auto.
    + pose proof (remove_ok m s _ v Ok_ I) as Ok1. pose proof Ok_ as (So & _). cbn in So.
      assert (NK : forall f', In f' fs -> field_key f' <> field_key f).
      { intros f' Hf Q. apply Nin. rewrite <- Q. apply in_map; auto. }
      assert (HFeq : forall f', In f' fs -> (hard_fail f' (snd (bt_remove (field_key f) m)) <-> hard_fail f' m)).
      { intros f' Hf. pose proof (NK f' Hf) as Nk. unfold hard_fail.
        assert (Q : forall v', In (field_key f', v') (snd (bt_remove (field_key f) m)) <-> In (field_key f', v') m).
        { intros v'. rewrite bt_remove_in by auto. cbn. tauto. }
        setoid_rewrite Q. reflexivity. }
      destruct (IH ND' _ _ Ok1) as [((f' & I' & HF) & H)|(H & m' & p & R & Ok' & I')].
      { intros f' v' Hf Hv. apply bt_remove_in in Hv; auto. apply S; cbn; tauto. }
      * left. split. { exists f'. split; [cbn; auto|]. apply HFeq; auto. }
        intros rest. cbn [seqs]. unfold mf at 1. rewrite E. auto.
      * right. split. { intros f' [<-|Hf]; auto. rewrite <- HFeq by auto. auto. }
        exists m', ([(field_key f, v)] ++ p). rewrite <- push_push. split; [econstructor; eauto|]. split; auto.
        intros x. rewrite I', bt_remove_in by auto. split.
        -- intros ((Hx & Nk) & N). split; auto. intros (f' & [<-|Hf] & T); [destruct T; contradiction|apply N; eauto].
        -- intros (Hx & N). split; [split; auto|].
           ++ intros Q. apply N. exists f. split; [cbn; auto|]. split; auto.
              destruct x as [k v']. cbn in Q. subst. assert (v' = v) by (eapply sorted_unique; eauto). subst; auto.
           ++ intros (f' & Hf & T). apply N. exists f'; cbn; auto.
Qed.

Lemma keys_map_ok m : keys_sorted (VMap m) -> map_ok (wm_new m).
Proof. intros K. apply keys_sorted_map in K. destruct K as [K1 K2]. split; [auto|split]; cbn; auto. Qed.

(** [{fields}] accepts exactly the maps with the required keys, only listed keys,
    and values of the right types. *)
Theorem struct_map_exact fs m : keys_sorted (VMap m) -> NoDup (map field_key fs) ->
  (forall f v, In f fs -> In (field_key f, v) m -> settled X lk c (f_type f) v) ->
  decides ((forall f v, In f fs -> In (field_key f, v) m -> acc (f_type f) v) /\
           (forall f, In f fs -> f_required f = true -> exists v, In (field_key f, v) m) /\
           (forall k v, In (k, v) m -> exists f, In f fs /\ k = field_key f))
    (val X lk (VMap m) (NMap (map field_member fs)) c).
Proof.
  intros K ND S. pose proof (keys_map_ok m K) as Ok_. pose proof Ok_ as (So & _). cbn in So.
  rewrite val_eq. unfold map_all. change (fun m w => mval X lk m w c) with (mf X lk c). unfold wm_new in *.
  destruct (fields_cases fs ND m [] Ok_ S) as [((f & I & HF) & H)|(NF & m' & p & R & Ok' & I')].
  - destruct (H []) as (e & w & msg & E & M). rewrite app_nil_r in E. rewrite E, M. constructor.
    intros (A & B & _). destruct HF as [(Q & N)|(v & Iv & (ms & V) & _)].
    + destruct (B f I Q) as (v & Hv). eapply N; eauto.
    + apply A in Iv; auto. unfold accepts in Iv. congruence.
  - rewrite <- (app_nil_r (map field_member fs)), (seqs_runs _ _ _ _ _ R). cbn.
    destruct m' as [|[k v] m'].
    + constructor. assert (TK : forall x, In x m -> exists f, In f fs /\ taken f x).
      { intros [k v] Hx. destruct (bt_get k m) eqn:G.
        - destruct (in_dec value_eq_dec k (map field_key fs)) as [Hk|Hk].
          + apply in_map_iff in Hk. destruct Hk as (f & Q & Hf). subst k.
            destruct (S f v Hf Hx) as [A|A]; [exists f; split; auto; split; auto|].
            exfalso. assert (T : ~ exists f0, In f0 fs /\ taken f0 (field_key f, v)).
            { intros (f0 & Hf0 & Q & T). cbn in Q, T.
              assert (f0 = f) as ->.
              { clear - ND Hf Hf0 Q. induction fs as [|g fs IH]; [destruct Hf|]. cbn in ND. inversion ND; subst.
                destruct Hf as [->|Hf], Hf0 as [->|Hf0]; auto.
                - destruct H1. rewrite Q. apply in_map; auto.
                - destruct H1. rewrite <- Q. apply in_map; auto. }
              destruct A as (ms & A). unfold accepts in T. congruence. }
            apply (I' (field_key f, v)). auto.
          + exfalso. apply (I' (k, v)). split; auto. intros (f & Hf & Q & _). cbn in Q. subst. apply Hk. apply in_map; auto.
        - apply bt_get_none in G; auto. destruct G. apply in_map_iff. exists (k, v); auto. }
      split; [|split].
      * intros f v Hf Hv. destruct (S f v Hf Hv) as [A|A]; auto. exfalso.
        destruct (TK _ Hv) as (f0 & Hf0 & Q & T). cbn in Q, T.
        assert (f0 = f) as ->.
        { clear - ND Hf Hf0 Q. induction fs as [|g fs IH]; [destruct Hf|]. cbn in ND. inversion ND; subst.
          destruct Hf as [->|Hf], Hf0 as [->|Hf0]; auto.
          - destruct H1. rewrite Q. apply in_map; auto.
          - destruct H1. rewrite <- Q. apply in_map; auto. }
        destruct A as (ms & A). unfold accepts in T. congruence.
      * intros f Hf Q. destruct (bt_get (field_key f) m) as [v|] eqn:G; [exists v; apply bt_get_in; auto|].
        exfalso. apply (NF f Hf). left. split; auto. intros v Hv. apply bt_get_in in Hv; auto. congruence.
      * intros k v Hx. destruct (TK _ Hx) as (f & Hf & Q & _). eauto.
    + apply decides_no. intros (A & B & D). destruct (proj1 (I' (k, v)) (or_introl eq_refl)) as (Hx & N).
      destruct (D k v Hx) as (f & Hf & ->). apply N. exists f. split; auto. split; [reflexivity|apply A; auto].
Qed.

(** ** Tables *)

Definition fits (key t : node) (x : entry) : Prop := acc key (fst x) /\ acc t (snd x).

Lemma table_repeats_inv key t cut k w w' : map_ok w -> repeats (mf X lk c (NKeyValue key t cut)) k w w' ->
  map_ok w' /\ (forall x, In x (wm_map w') -> In x (wm_map w)) /\
  (forall x, In x (wm_map w) -> In x (wm_map w') \/ fits key t x) /\
  List.length (wm_map w) = (N.to_nat k + List.length (wm_map w'))%nat.
Proof.
  intros O R. induction R as [w|k w w1 w2 R IH F]; [repeat split; auto; apply O|].
  destruct (IH O) as (O1 & I1 & I2 & L). clear IH. destruct w1 as [m1 s1]. cbn [wm_map] in *. unfold mf in F.
  destruct (kv_cases key t cut m1 s1 O1) as [(msg & E & _)|(k' & v & K & I & A & [(At & E)|(e & V & E)])]; rewrite E in F; inversion F; subst.
  pose proof O1 as (So & _). cbn in So. cbn [wm_map]. split; [apply remove_ok; auto|]. split; [|split].
  - intros x Hx. apply bt_remove_in in Hx; auto. apply I1. tauto.
  - intros x Hx. destruct (I2 x Hx) as [H|H]; auto.
    destruct (value_eq_dec (fst x) k') as [Q|Q].
    + right. destruct x as [kx vx]. cbn in Q. subst. assert (vx = v) by (eapply sorted_unique; eauto). subst. split; auto.
    + left. apply bt_remove_in; auto.
  - rewrite L, (remove_length m1 k' v So I). lia.
Qed.

Lemma table_repeats key t cut m s : map_ok (WM m s) -> (forall x, In x m -> fits key t x) ->
  exists p, repeats (mf X lk c (NKeyValue key t cut)) (N.of_nat (List.length m)) (WM m s) (WM [] (push p s)).
Proof.
  remember (List.length m) as n eqn:Hn. revert m s Hn. induction n as [|n IH]; intros m s Hn O F.
  - destruct m; [|discriminate]. exists []. rewrite push_nil. constructor.
  - pose proof O as (So & _). cbn in So.
    destruct (kv_cases key t cut m s O) as [(msg & E & N)|(k & v & K & I & A & [(At & E)|(e & V & E)])].
    + destruct m as [|x m]; [discriminate|]. exfalso. apply (N x); [left; auto|]. apply F. left; auto.
    + rewrite (remove_length m k v So I) in Hn. assert (Hn' : n = List.length (snd (bt_remove k m))) by lia.
      destruct (IH (snd (bt_remove k m)) (push [(k, v)] s) Hn') as (p & R).
      { apply remove_ok; auto. }
      { intros x Hx. apply bt_remove_in in Hx; auto. apply F. tauto. }
      exists ([(k, v)] ++ p). rewrite <- push_push, Nat2N.inj_succ, <- N.add_1_r. eapply repeats_front; [exact E|exact R].
    + exfalso. destruct (F _ I) as [_ Ft]. unfold accepts in Ft. cbn in Ft. congruence.
Qed.

Lemma occ_err {St} (f : St -> res unit * St) up s e s' : occ f up 0 s = (Err e, s') ->
  exists k s1, repeats f k s s1 /\ f s1 = (Err e, s').
Proof.
  assert (G : forall d k0 s1, d = N.to_nat (up - k0) -> repeats f k0 s s1 -> occ f up k0 s1 = (Err e, s') ->
     exists k s1, repeats f k s s1 /\ f s1 = (Err e, s')).
  { induction d as [d IH] using lt_wf_ind; intros k0 s1 Hd R E. rewrite occ_eq in E.
    destruct (f s1) as [[[]|e'|] s2] eqn:F; try discriminate.
    - destruct (N.leb_spec up (k0 + 1)); [discriminate|]. eapply IH; [|reflexivity| |exact E]; [lia|econstructor; eauto].
    - destruct (is_mismatch e'); inversion E; subst. eauto. }
  intros E. eapply G; [reflexivity|constructor|exact E].
Qed.

(** A table member [lim key => t] on the remaining entries. *)
Lemma table_cases key t cut lim m s : map_ok (WM m s) -> (1 <= snd (bounds lim))%N ->
  (forall x, In x m -> acc key (fst x) -> settled X lk c t (snd x)) ->
  ((forall x, In x m -> fits key t x) /\ (fst (bounds lim) <= N.of_nat (List.length m) <= snd (bounds lim))%N /\
   exists p, mval X lk (NOccur lim (NKeyValue key t cut)) (WM m s) c = (Ok tt, WM [] (push p s))) \/
  (~ ((forall x, In x m -> fits key t x) /\ (fst (bounds lim) <= N.of_nat (List.length m) <= snd (bounds lim))%N) /\
   exists r w, mval X lk (NOccur lim (NKeyValue key t cut)) (WM m s) c = (r, w) /\
     ((r = Ok tt /\ wm_map w <> []) \/ exists e msg, r = Err e /\ erase_mapcut e = EMismatch msg)).
Proof.
  intros O U S. set (kv := NKeyValue key t cut).
  destruct (mval X lk (NOccur lim kv) (WM m s) c) as [r w] eqn:E.
  assert (NP : r <> Panic).
  { pose proof (mval_nopanic X lk (NOccur lim kv) (WM m s) c O) as H. rewrite E in H. auto. }
  destruct r as [[]|e|]; [| |congruence].
  - destruct (wm_map w) as [|x0 l0] eqn:W.
    + left. pose proof E as E0. apply map_occur_sound in E; auto. destruct E as (k & w1 & B & R & D).
      destruct (table_repeats_inv key t cut k _ _ O R) as (O1 & _ & I2 & L). cbn [wm_map] in *.
      assert (W1 : wm_map w1 = [] /\ exists p, wm_snaps w = push p s).
      { assert (Sn : exists p, wm_snaps w1 = push p s).
        { clear - R O. revert O. remember (WM m s) as w0. assert (wm_snaps w0 = s) as <- by (subst; auto). clear Heqw0.
          intros O. induction R as [w|k w w1 w2 R IH F]; [exists []; rewrite push_nil; auto|].
          destruct (IH O) as (p & Sp). destruct (table_repeats_inv _ _ _ _ _ _ O R) as (O1 & _).
          destruct w1 as [m1 s1]. unfold mf, kv in F. cbn in Sp. subst s1.
          destruct (kv_cases key t cut m1 _ O1) as [(msg & E & _)|(k' & v & K & I & A & [(At & E)|(e & V & E)])]; rewrite E in F; inversion F; subst.
          cbn. rewrite push_push. eauto. }
        destruct D as [(_ & ->)|(msg & D)]; [auto|]. destruct w1 as [m1 s1].
        destruct (kv_cases key t cut m1 s1 O1) as [(msg' & E & _)|(k' & v & K & I & A & [(At & E)|(e & V & E)])];
          unfold kv in D; rewrite E in D; inversion D; subst; cbn in *; auto. }
      destruct W1 as (W1 & p & Sp). rewrite W1 in L. cbn in L. split; [|split; [lia|]].
      * intros x Hx. destruct (I2 x Hx) as [H|H]; auto. rewrite W1 in H. destruct H.
      * exists p. destruct w as [mw sw]. cbn in W, Sp. subst. auto.
    + right. split.
      * intros (F & Lo & Hi). destruct (table_repeats key t cut m s O F) as (p & R).
        destruct (map_occur_greedy X lk lim kv _ _ _ (WM [] (push p s)) c U R) as (Q & _).
        { destruct (N.eq_dec (N.of_nat (List.length m)) (snd (bounds lim))) as [Q|Q]; [left; auto|].
          right. split; [lia|]. destruct (table_repeats_inv _ _ _ _ _ _ O R) as (O1 & _).
          destruct (kv_cases key t cut [] (push p s) O1) as [(msg & E1 & _)|(k' & v & K & [] & _)]. eauto. }
        rewrite E in Q. cbn in Q. subst w. discriminate.
      * exists (Ok tt), w. split; auto. left. split; auto. congruence.
  - right.
    assert (M : exists msg, erase_mapcut e = EMismatch msg).
    { rewrite mval_eq in E. unfold map_occur in E. destruct (occ _ _ _ _) as [[k|e'|] w'] eqn:Oc; cbn in E; [|inversion E; subst|discriminate].
      - destruct (N.ltb k (fst (bounds lim))); inversion E; subst. eexists; reflexivity.
      - apply occ_err in Oc. destruct Oc as (k & w1 & R & F).
        destruct (table_repeats_inv key t cut k _ _ O R) as (O1 & I1 & _). destruct w1 as [m1 s1]. cbn [wm_map] in *.
        destruct (kv_cases key t cut m1 s1 O1) as [(msg & E1 & _)|(k' & v & K & I & A & [(At & E1)|(e' & V & E1)])]; unfold kv in F; rewrite E1 in F; inversion F; subst.
        + eexists; reflexivity.
        + destruct (S (k', v) (I1 _ I) A) as [Q|(msg & Q)]; cbn in Q; [unfold accepts in Q; congruence|].
          assert (e' = EMismatch msg) as -> by congruence. destruct cut; eexists; reflexivity. }
    destruct M as (msg & M). split.
    + intros (F & Lo & Hi). destruct (table_repeats key t cut m s O F) as (p & R).
      destruct (map_occur_greedy X lk lim kv _ _ _ (WM [] (push p s)) c U R) as (_ & Q & _).
      { destruct (N.eq_dec (N.of_nat (List.length m)) (snd (bounds lim))) as [Q|Q]; [left; auto|].
        right. split; [lia|]. destruct (table_repeats_inv _ _ _ _ _ _ O R) as (O1 & _).
        destruct (kv_cases key t cut [] (push p s) O1) as [(msg' & E1 & _)|(k' & v & K & [] & _)]. eauto. }
      rewrite E in Q. cbn in Q. specialize (Q Lo). discriminate.
    + exists (Err e), w. split; auto. right. eauto.
Qed.

Theorem table_map_exact key t cut lim m : keys_sorted (VMap m) -> (1 <= snd (bounds lim))%N ->
  (forall k v, In (k, v) m -> acc key k -> settled X lk c t v) ->
  decides ((forall k v, In (k, v) m -> acc key k /\ acc t v) /\
           (fst (bounds lim) <= N.of_nat (List.length m) <= snd (bounds lim))%N)
    (val X lk (VMap m) (NMap [NOccur lim (NKeyValue key t cut)]) c).
Proof.
  intros K U S. pose proof (keys_map_ok m K) as O. unfold wm_new in O.
  rewrite val_eq. unfold map_all, wm_new. cbn [seqs].
  destruct (table_cases key t cut lim m [] O U) as [(F & B & p & E)|(N & r & w & E & D)].
  { intros [k v] I A. eapply S; eauto. }
  - rewrite E. cbn. constructor. split; auto. intros k v I. apply (F (k, v)); auto.
  - rewrite E. assert (N' : ~ ((forall k v, In (k, v) m -> acc key k /\ acc t v) /\
           (fst (bounds lim) <= N.of_nat (List.length m) <= snd (bounds lim))%N)).
    { intros (F & B). apply N. split; auto. intros [k v] I. apply F; auto. }
    destruct D as [(-> & D)|(e & msg & -> & D)].
    + destruct (wm_map w); [congruence|]. apply decides_no; auto.
    + rewrite D. apply decides_no; auto.
Qed.

(** ** Struct with a table for the remaining entries: [{fields, lim key => t}]. *)
Theorem extensible_map_exact fs key t cut lim m : keys_sorted (VMap m) -> NoDup (map field_key fs) ->
  (1 <= snd (bounds lim))%N ->
  (forall f v, In f fs -> In (field_key f, v) m -> settled X lk c (f_type f) v) ->
  (forall k v, In (k, v) m -> acc key k -> settled X lk c t v) ->
  decides
    ((forall f, In f fs -> f_required f = true -> exists v, In (field_key f, v) m) /\
     (forall f v, In f fs -> In (field_key f, v) m -> f_required f = true \/ f_cut f = true -> acc (f_type f) v) /\
     exists rest, sorted rest /\
       (forall x, In x rest <-> In x m /\ ~ exists f, In f fs /\ fst x = field_key f /\ acc (f_type f) (snd x)) /\
       (forall k v, In (k, v) rest -> acc key k /\ acc t v) /\
       (fst (bounds lim) <= N.of_nat (List.length rest) <= snd (bounds lim))%N)
    (val X lk (VMap m) (NMap (map field_member fs ++ [NOccur lim (NKeyValue key t cut)])) c).
Proof.
  intros K ND U S St. pose proof (keys_map_ok m K) as Ok_. pose proof Ok_ as (So & _). cbn in So.
  rewrite val_eq. unfold map_all. change (fun m w => mval X lk m w c) with (mf X lk c). unfold wm_new in *.
  destruct (fields_cases fs ND m [] Ok_ S) as [((f & I & HF) & H)|(NF & m' & p & R & Ok' & I')].
  - destruct (H [NOccur lim (NKeyValue key t cut)]) as (e & w & msg & E & M). rewrite E, M. constructor.
    intros (B & A & _). destruct HF as [(Q & N)|(v & Iv & (ms & V) & Q)].
    + destruct (B f I Q) as (v & Hv). eapply N; eauto.
    + apply (A f v) in Iv; auto. unfold accepts in Iv. congruence.
  - rewrite (seqs_runs _ _ _ _ _ R). cbn [seqs push] in *. pose proof Ok' as (So' & _). cbn in So'.
    assert (HF : (forall f, In f fs -> f_required f = true -> exists v, In (field_key f, v) m) /\
      (forall f v, In f fs -> In (field_key f, v) m -> f_required f = true \/ f_cut f = true -> acc (f_type f) v)).
    { split.
      - intros f Hf Q. destruct (bt_get (field_key f) m) as [v|] eqn:G; [exists v; apply bt_get_in; auto|].
        exfalso. apply (NF f Hf). left. split; auto. intros v Hv. apply bt_get_in in Hv; auto. congruence.
      - intros f v Hf Hv Q. destruct (S f v Hf Hv) as [A|A]; auto. exfalso. apply (NF f Hf). right. exists v; auto. }
    assert (UN : forall rest, sorted rest ->
       (forall x, In x rest <-> In x m /\ ~ exists f, In f fs /\ fst x = field_key f /\ acc (f_type f) (snd x)) -> rest = m').
    { intros rest Sr Ir. apply sorted_ext; auto. intros x. rewrite Ir, I'. reflexivity. }
    destruct (table_cases key t cut lim m' [] Ok' U) as [(F & B & q & E)|(N & r & w & E & D)].
    { intros [k v] I A. apply I' in I. eapply St; eauto; tauto. }
    + unfold mf. rewrite E. cbn. constructor. do 2 (split; [apply HF|]). exists m'. split; [auto|]. split; [exact I'|]. split; auto.
      intros k v I. apply (F (k, v)); auto.
    + unfold mf. rewrite E.
      match goal with |- decides ?P _ => assert (N' : ~ P) end.
      { intros (_ & _ & rest & Sr & Ir & F & B). apply UN in Ir; auto. subst rest. apply N. split; auto.
        intros [k v] I. apply F; auto. }
      destruct D as [(-> & D)|(e & msg & -> & D)].
      * destruct (wm_map w); [congruence|]. apply decides_no; auto.
      * rewrite D. apply decides_no; auto.
Qed.

Theorem map_needs_map ms v : (forall m, v <> VMap m) -> val X lk v (NMap ms) c = Err (EMismatch (txt "map")).
Proof. intros H. rewrite val_eq. unfold map_all. destruct v; auto. exfalso; eapply H; reflexivity. Qed.
End Maps.

(** The key a member takes: the first accepted one in key order. *)
Theorem map_key_first X lk c key m s k v : map_ok (WM m s) ->
  (map_key X lk key (WM m s) c = Ok (k, v) <->
   exists pre post, m = pre ++ (k, v) :: post /\ accepts X lk c key k /\
     forall x, In x pre -> ~ accepts X lk c key (fst x)).
Proof.
  intros O. pose proof O as (So & En & _). cbn in So, En.
  assert (L : (exists l, key = NLiteral l) \/ (forall w, map_key X lk key w c =
      searches (fun k => val X lk k key c) (wm_map w) (mismatch (txt "map{" ++ show_node X key ++ txt "}")))).
  { destruct key; eauto; right; reflexivity. }
  destruct L as [(l & ->)|L].
  - assert (U : forall k', accepts X lk c (NLiteral l) k' <-> k' = literal_value l) by (intros; apply literal_accepts).
    split.
    + intros E. destruct (map_key_cases X lk c (NLiteral l) m s O) as [(k' & v' & K & I & A)|(msg & K & _)]; [|congruence].
      rewrite K in E. inversion E; subst. apply in_split in I. destruct I as (pre & post & ->). exists pre, post.
      split; auto. split; auto. intros [k0 v0] Hx A0. apply U in A, A0. cbn in A0. subst.
      apply sorted_nodup in So. rewrite map_app in So. cbn in So. apply NoDup_remove_2 in So. apply So.
      apply in_or_app. left. apply in_map_iff. exists (literal_value l, v0). auto.
    + intros (pre & post & -> & A & _). apply U in A. subst k. apply map_key_literal; auto. apply in_elt.
  - rewrite L. cbn [wm_map]. clear L O So. induction m as [|[k0 v0] m IH]; cbn [searches].
    + split; [discriminate|]. intros (pre & post & E & _). destruct pre; discriminate.
    + inversion En as [|? ? Hk Hm]; subst. unfold accepts in *. destruct (val X lk k0 key c) as [[]|e|] eqn:V.
      * split.
        -- intros E. inversion E; subst. exists [], m. auto.
        -- intros (pre & post & E & A & N). destruct pre as [|x pre]; inversion E; subst; auto.
           exfalso. apply (N (k0, v0)); [left; auto|exact V].
      * rewrite (IH Hm). split.
        -- intros (pre & post & -> & A & N). exists ((k0, v0) :: pre), post. split; auto. split; auto.
           intros x [<-|Hx]; auto. cbn. congruence.
        -- intros (pre & post & E & A & N). destruct pre as [|x pre]; inversion E; subst; [congruence|].
           exists pre, post. split; auto. split; auto. intros y Hy. apply N. right; auto.
      * destruct (val_nopanic X lk k0 key c (proj1 Hk) V).
Qed.

Theorem group_stops_cut X lk ms w c m : fst (mval X lk (NGroup ms) w c) <> Err (EMapCut m).
Proof.
  rewrite mval_eq. unfold map_group. destruct (seqs _ _ _) as [[u|e|] w']; cbn; try discriminate.
  - destruct (wm_commit w'); discriminate.
  - destruct (wm_rewind w'); cbn; [|discriminate]. destruct e; discriminate.
Qed.

(** Alternatives are all tried on the same data: C28, positive part. *)
From Coq Require Import List Bool ZArith NArith String Lia.
From Verif Require Import Base Util Data Value Convert Ivt Scalar Validate Fun SpecBase SpecCtx SpecPos SpecVerdict SpecPeg Alternatives Demo.
Import ListNotations.
Open Scope list_scope.

(** With a group choice among alternatives of the class [steady], at any position of
    an array, the verdict is the verdict of the same array with one of the
    alternatives written there instead. *)
Theorem C28_alternatives_array_partial : forall X lk c v pre os post,
  (forall name e, lk name = inr e -> is_fatal e = true) -> wf_value v -> os <> [] -> (forall o, In o os -> steady lk c o) ->
  exists o, In o os /\ same_verdict (val X lk v (NArray (pre ++ NChoice os :: post)) c) (val X lk v (NArray (pre ++ o :: post)) c).
Proof. intros X lk c v pre os post H. apply array_alternatives; auto. Qed.
(** Likewise in a map. *)
Theorem C28_alternatives_map_partial : forall X lk c v pre os post,
  (forall name e, lk name = inr e -> is_fatal e = true) -> wf_value v -> os <> [] -> (forall o, In o os -> steady_m lk c o) ->
  exists o, In o os /\ same_verdict (val X lk v (NMap (pre ++ NChoice os :: post)) c) (val X lk v (NMap (pre ++ o :: post)) c).
Proof. intros X lk c v pre os post H. apply map_alternatives; auto. Qed.

(** [[null, ((int, * int, tstr) // (int, bool) // ? int), int]]: the second alternative is
    tried on what the first one had taken. *)
Definition alts : list node := [NGroup [int_t; NOccur OZeroOrMore int_t; tstr_t]; NGroup [int_t; NPrelude PBool]; NOccur OOptional int_t].
Lemma flat_pos ms : (forall m, In m ms -> match m with NPrelude _ | NOccur _ (NPrelude _) => True | _ => False end) ->
  forall c m, array_pos no_rules initial_ctx ms c m -> match m with NPrelude _ | NOccur _ (NPrelude _) => True | _ => False end.
Proof.
  intros H c m P. induction P as [m I|c name args nd' c' P IH L|c name args ms' c' m P IH L I|c lim m P IH|c os m P IH I|c ms' m P IH I]; [exact (H m I)|contradiction|contradiction| |contradiction|contradiction].
  destruct m; try contradiction. exact Logic.I.
Qed.
Example C28_alternatives_example :
  (forall name e, no_rules name = inr e -> is_fatal e = true) /\ (forall o, In o alts -> steady no_rules initial_ctx o) /\
  val demo_ext no_rules (VArray [VNull; vi 1; VBool true; vi 2]) (NArray ([NPrelude PNil] ++ NChoice alts :: [int_t])) initial_ctx = Ok tt /\
  rejected (val demo_ext no_rules (VArray [VNull; vi 1; vi 1; vi 2]) (NArray ([NPrelude PNil] ++ NChoice alts :: [int_t])) initial_ctx).
Proof.
  split; [intros name e [= <-]; reflexivity|]. split; [|split; [run 20|eexists; run 20]].
  intros o [<-|[<-|[<-|[]]]].
  - apply steady_group. intros c' gs P. apply flat_pos in P; auto. intros m [<-|[<-|[<-|[]]]]; exact Logic.I.
  - apply steady_group. intros c' gs P. apply flat_pos in P; auto. intros m [<-|[<-|[]]]; exact Logic.I.
  - apply steady_occur; [vm_compute; discriminate|]. eapply steady_element. reflexivity.
Qed.
(** [{? (a: int // b: int), * tstr => bool}]. *)
Definition alts_m : list node := [NKeyValue (lit_s "a") int_t true; NOccur OOptional (NKeyValue (lit_s "b") int_t true)].
Example C28_alternatives_map_example :
  (forall o, In o alts_m -> steady_m no_rules initial_ctx o) /\
  val demo_ext no_rules (VMap [(vs "b", vi 1); (vs "c", VBool true)]) (NMap ([] ++ NChoice alts_m :: [NOccur OZeroOrMore (NKeyValue tstr_t (NPrelude PBool) false)])) initial_ctx = Ok tt /\
  rejected (val demo_ext no_rules (VMap [(vs "a", vi 1); (vs "b", vi 2)]) (NMap ([] ++ NChoice alts_m :: [NOccur OZeroOrMore (NKeyValue tstr_t (NPrelude PBool) false)])) initial_ctx).
Proof.
  split; [|split; [run 20|eexists; run 20]].
  intros o [<-|[<-|[]]]; [apply steadym_entry|]. apply steadym_occur; [vm_compute; discriminate|apply steadym_entry].
Qed.

Print Assumptions C28_alternatives_array_partial.
Print Assumptions C28_alternatives_map_partial.

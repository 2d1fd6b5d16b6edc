(** What a failed alternative may leave behind: C28, for every group and member. *)
From Coq Require Import List Bool ZArith NArith String Lia.
From Verif Require Import Base Util Data Value Convert Ivt Scalar Validate Fun SpecBase SpecCtx SpecPos SpecLoss ValueOrder LossProofs Demo.
Import ListNotations.
Open Scope list_scope.

(** A failed group leaves the array as it was, except for elements that a parenthesised
    group inside it had accepted; the others stay, unchanged and in order. *)
Theorem C28_group_loss_array_partial : forall X lk c ms w e w', aval X lk (NGroup ms) w c = (Err e, w') ->
  thinned (taken_by_group X lk c ms) (wa_array w') (wa_array w).
Proof. exact array_group_loss. Qed.
(** Any member: what it takes are accepted elements; the rest stays, in order, except
    for what inner groups took. *)
Theorem C28_member_loss_array_partial : forall X lk c m w r w', aval X lk m w c = (r, w') -> r <> Panic ->
  exists taken, Forall (element_accepted X lk c [m]) taken /\
    thinned (taken_by_group X lk c [m]) (taken ++ wa_array w') (wa_array w).
Proof. exact array_member_loss. Qed.
(** The same for maps. *)
Theorem C28_group_loss_map_partial : forall X lk c ms w e w', sorted (wm_map w) -> mval X lk (NGroup ms) w c = (Err e, w') ->
  (forall x, In x (wm_map w') -> In x (wm_map w)) /\
  (forall x, In x (wm_map w) -> In x (wm_map w') \/ entry_taken_by_group X lk c ms x).
Proof. exact map_group_loss. Qed.
Theorem C28_member_loss_map_partial : forall X lk c m w r w', sorted (wm_map w) -> mval X lk m w c = (r, w') -> r <> Panic ->
  (forall x, In x (wm_map w') -> In x (wm_map w)) /\
  (forall x, In x (wm_map w) -> In x (wm_map w') \/ entry_accepted X lk c [m] x \/ entry_taken_by_group X lk c [m] x).
Proof. exact map_member_loss. Qed.

(** [((int, int), bool, tstr)] on 1, 2, true, null: the inner group's 1 and 2 are gone, [true] is put back. *)
Example C28_loss_example : exists e,
  aval demo_ext no_rules (NGroup [NGroup [int_t; int_t]; NPrelude PBool; tstr_t]) (wa_new [vi 1; vi 2; VBool true; VNull]) initial_ctx
    = (Err e, wa_new [VBool true; VNull]).
Proof. eexists. apply (aval_run _ _ 10). reflexivity. Qed.
Example C28_loss_map_example : sorted [(vi 1, vi 1); (vi 2, vi 2); (vi 4, vi 4)] /\ exists e,
  mval demo_ext no_rules (NGroup [NGroup [NKeyValue (lit_i 1) int_t true]; NKeyValue (lit_i 2) int_t true; NKeyValue (lit_i 3) int_t true])
    (wm_new [(vi 1, vi 1); (vi 2, vi 2); (vi 4, vi 4)]) initial_ctx = (Err e, wm_new [(vi 2, vi 2); (vi 4, vi 4)]).
Proof.
  split; [|eexists; apply (mval_run _ _ 10); reflexivity].
  repeat (constructor; [|repeat constructor]); repeat constructor.
Qed.

Print Assumptions C28_group_loss_array_partial.
Print Assumptions C28_member_loss_array_partial.
Print Assumptions C28_group_loss_map_partial.
Print Assumptions C28_member_loss_map_partial.

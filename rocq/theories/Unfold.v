(** Unfolding equations of the five mutually recursive functions. *)
From Coq Require Import List Bool ZArith NArith String.
From Verif Require Import Base Util Data Value Convert Ivt Scalar Validate.
Import ListNotations.

Section Unfold.
Variable X : ext.
Context {C : Type}.
Variable lookup : C -> text -> list node -> res (node * C).

Lemma validate_S n v nd c :
  validate X lookup (S n) v nd c =

      match nd with
      | NLiteral l => Some (validate_literal X l v)
      | NPrelude p => Some (validate_prelude_type p v)
      | NChoice os => validate_choice (fun o => validate X lookup n v o c) os
      | NMap ms => validate_map (fun m w => validate_map_member X lookup n m w c) ms v
      | NArray ms => validate_array (fun m w => validate_array_member X lookup n m w c) ms v
      | NRule name args =>
          match lookup c name args with
          | Ok (nd', c') => validate X lookup n v nd' c'
          | Err e => Some (Err e)
          | Panic => Some Panic
          end
      | NGroup ms => validate_standalone_group (fun m => validate X lookup n v m c) ms
      | NKeyValue _ _ _ => Some (Err (EStructural (txt "unexpected KeyValue")))
      | NOccur _ _ => Some (Err (EStructural (txt "unexpected Occur")))
      | NUnwrap _ _ => Some (Err (EStructural (txt "unexpected Unwrap")))
      | NRange s e incl => validate_range X lookup n s e incl v c
      | NControl ctl => validate_control X lookup n (fun v' nd' => validate X lookup n v' nd' c) ctl v c
      | NChoiceify name args => validate_choiceify X lookup n name args v c
      | NChoiceifyInline ms =>
          validate_choiceify_members (fun m => validate X lookup n v m c)
            (fun name args => validate_choiceify X lookup n name args v c) ms
      end.
Proof. reflexivity. Qed.

Lemma validate_array_member_S n m w c :
  validate_array_member X lookup (S n) m w c =

      match m with
      | NOccur limit nd =>
          validate_array_occur X n (fun w => validate_array_member X lookup n nd w c) limit nd w
      | NKeyValue _ val _ => validate_array_value X (fun v nd => validate X lookup n v nd c) val w
      | NRule name args =>
          match lookup c name args with
          | Ok (nd', c') => validate_array_member X lookup n nd' w c'
          | Err e => Some (Err e, w)
          | Panic => Some (Panic, w)
          end
      | NUnwrap name args =>
          match lookup c name args with
          | Ok (nd', c') =>
              validate_array_unwrap (fun m w => validate_array_member X lookup n m w c') nd' w
          | Err e => Some (Err e, w)
          | Panic => Some (Panic, w)
          end
      | NChoice os =>
          try_loop is_fatal (fun o w => validate_array_member X lookup n o w c) os (choice_error os) w
      | NGroup ms => validate_array_group (fun m w => validate_array_member X lookup n m w c) ms w
      | _ => validate_array_value X (fun v nd => validate X lookup n v nd c) m w
      end.
Proof. reflexivity. Qed.

Lemma validate_map_member_S n m w c :
  validate_map_member X lookup (S n) m w c =

      match m with
      | NOccur limit nd =>
          validate_map_occur X n (fun w => validate_map_member X lookup n nd w c) limit nd w
      | NKeyValue key val cut =>
          validate_map_keyvalue X (fun v nd => validate X lookup n v nd c) key val cut w
      | NRule name args =>
          match lookup c name args with
          | Ok (nd', c') => validate_map_member X lookup n nd' w c'
          | Err e => Some (Err e, w)
          | Panic => Some (Panic, w)
          end
      | NUnwrap name args =>
          match lookup c name args with
          | Ok (nd', c') =>
              validate_map_unwrap (fun m w => validate_map_member X lookup n m w c') nd' w
          | Err e => Some (Err e, w)
          | Panic => Some (Panic, w)
          end
      | NGroup ms => validate_map_group (fun m w => validate_map_member X lookup n m w c) ms w
      | NChoice os => validate_map_choice (fun m w => validate_map_member X lookup n m w c) os w
      | NChoiceify name args => validate_map_choiceify X lookup n name args w c
      | NChoiceifyInline ms => validate_map_choice (fun m w => validate_map_member X lookup n m w c) ms w
      | NLiteral _ => Some (Err (EStructural (txt "literal map member")), w)
      | NPrelude _ => Some (Err (EStructural (txt "prelude type map member")), w)
      | NMap _ => Some (Err (EStructural (txt "map as map member")), w)
      | NArray _ => Some (Err (EStructural (txt "array as map member")), w)
      | NRange _ _ _ => Some (Err (EStructural (txt "range as map member")), w)
      | NControl _ => Some (Err (EStructural (txt "control op as map member")), w)
      end.
Proof. reflexivity. Qed.

Lemma validate_choiceify_S n name args v c :
  validate_choiceify X lookup (S n) name args v c =

      match lookup c name args with
      | Ok (nd', c') =>
          match nd' with
          | NGroup ms =>
              validate_choiceify_members (fun m => validate X lookup n v m c')
                (fun name' args' => validate_choiceify X lookup n name' args' v c') ms
          | NRule name' args' => validate_choiceify X lookup n name' args' v c'
          | _ => Some (Err (EStructural (txt "improper choiceify target")))
          end
      | Err e => Some (Err e)
      | Panic => Some Panic
      end.
Proof. reflexivity. Qed.

Lemma validate_map_choiceify_S n name args w c :
  validate_map_choiceify X lookup (S n) name args w c =

      match lookup c name args with
      | Ok (nd', c') =>
          match nd' with
          | NGroup ms =>
              validate_map_choiceify_members (fun m w => validate_map_member X lookup n m w c')
                (fun name' args' w => validate_map_choiceify X lookup n name' args' w c') ms w
          | NRule name' args' => validate_map_choiceify X lookup n name' args' w c'
          | _ => Some (Err (EStructural (txt "improper map choiceify target")), w)
          end
      | Err e => Some (Err e, w)
      | Panic => Some (Panic, w)
      end.
Proof. reflexivity. Qed.

End Unfold.

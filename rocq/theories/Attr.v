(** [ere-core/src/lib.rs], [__compile_regex_attr] (256-378): the [#[regex]] attribute macro with the item it is put on. *)
From Verif Require Export Pick.
Open Scope nat_scope.
Open Scope list_scope.

(** The item, as far as the macro and the code it emits look at it.  [syn::Data], [syn::Fields]; the types of the fields are
    those the emitted constructor call can be given (356-361), all others are [FieldOther]. *)
Inductive field_type := FieldStr | FieldOption | FieldOther.
Inductive fields := FNamed (l : list field_type) | FUnnamed (l : list field_type) | FUnit.
Inductive item := IEnum | IUnion | IStruct (f : fields).
(** 317-335 and 356-361: the constructor is called with [result[k]], an [Option<&'a str>], for an optional group and with
    [result[k].expect(..)], a [&'a str], for the others; rustc accepts the call if the types of the fields are these.
    Simplified: the struct is taken to have the one generic parameter ['a] (340). *)
Definition field_fits (opt : bool) (ty : field_type) : bool :=
  match ty with FieldStr => negb opt | FieldOption => opt | FieldOther => false end.
Fixpoint fields_fit (opts : list bool) (l : list field_type) : bool :=
  match opts, l with
  | [], [] => true
  | o :: opts', ty :: l' => field_fits o ty && fields_fit opts' l'
  | _, _ => false
  end.
(** The pattern is parsed and its groups are classified first (258-270), then the item is looked at: not a struct (274-281), not a
    tuple struct (282-289), wrong number of fields (290-300); then the engine is chosen (338) and the code emitted (340-373). *)
Definition attr_macro (s : list N) (it : item) : res (engine * list bool) :=
  with_ere s (fun e =>
    do n <- working_new (tree_of e);
    do opts <- mapM (capture_group_is_optional n) (seq 0 (num_capture_groups n));
    match it with
    | IStruct (FUnnamed l) =>
        if length l =? length opts then
          do en <- pick_engine e;
          if (engine_groups en =? num_capture_groups n) && fields_fit opts l then Ok (en, opts) else NoCompile
        else NoCompile
    | _ => NoCompile
    end).
(** [test] of the emitted [impl], 351-353: the first component of the engine's pair of functions. *)
Definition attr_test (en : engine) (text : list N) : res bool := engine_test en text.

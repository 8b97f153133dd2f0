(** What the documentation of a builtin says about its calls (C99). *)
From Verif Require Import Base Float NumText Value Ast Arith VmOps Args Compiler Vm Docs.

Definition number (v : value) : Prop := (exists z, v = VInt z) \/ exists f, v = VFloat f.
(** Values that may be passed for a parameter of a documented type. *)
Inductive allowed : rstring -> value -> Prop :=
| al_any v : allowed (str "any") v
| al_number ty v : In ty [str "int"; str "int32"; str "u8"; str "double"; str "num"] -> number v -> allowed ty v
| al_bool b : allowed (str "bool") (VBool b)
| al_str s : allowed (str "str") (VString s)
| al_color r g b a : allowed (str "color") (VColor r g b a)
| al_list l size mx : allowed (str "list") (VArray l size mx)
| al_pair a b : allowed (str "list") (VPair a b).
(** Arguments that fit the documented parameters: optional ones may be left out from the right,
    [rest] takes any number. *)
Inductive fitting : list arg_doc -> list value -> Prop :=
| ft_left_out l : Forall (fun d => ad_optional d = true) l -> fitting l []
| ft_rest d args : ad_type d = str "rest" -> fitting [d] args
| ft_arg d l v args : allowed (ad_type d) v -> fitting l args -> fitting (d :: l) (v :: args).

(** Values of a documented type of results. *)
Inductive is_a : rstring -> value -> Prop :=
| ia_any v : is_a (str "any") v
| ia_num v : number v -> is_a (str "num") v
| ia_int z : is_a (str "int") (VInt z)
| ia_float f : is_a (str "float") (VFloat f)
| ia_bool b : is_a (str "bool") (VBool b)
| ia_str s : is_a (str "str") (VString s)
| ia_color r g b a : is_a (str "color") (VColor r g b a)
| ia_list l size mx : is_a (str "list") (VArray l size mx).
(** Where no type is documented the result is none. *)
Definition returned (types : list rstring) (v : value) : Prop :=
  match types with [] => v = VNone | _ => Exists (fun ty => is_a ty v) types end.

Definition all_docs : list builtin_doc := flat_map gd_builtins groups.

(** A default as the documentation writes it: [String::from("...")] *)
Definition quoted (s : rstring) : rstring := str "String::from(""" ++ s ++ str """)".

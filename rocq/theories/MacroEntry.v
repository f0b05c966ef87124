(** MacroEntry.v - the entry point of define_varlen (varlen_macro/src/lib.rs:143-187, 246) and its errors
    (535-558, 926-945, 1020-1066): which message is reported where, what is emitted then, and where the
    macro itself panics. The grouping of the fields is that of MacroFront.v. *)
From Coq Require Import Ascii PeanoNat.
From Coq Require Export String.
From Verif Require Export MacroFront.
Open Scope nat_scope.

(** ** Identifiers *)
(** The characters of an identifier. Simplification: bytes of non-ASCII characters count as letters. *)
Definition is_letter (c : ascii) : bool :=
  let n := nat_of_ascii c in
  ((65 <=? n) && (n <=? 90) || (97 <=? n) && (n <=? 122) || (n =? 95) || (128 <=? n))%bool.
Definition is_digit (c : ascii) : bool := let n := nat_of_ascii c in ((48 <=? n) && (n <=? 57))%bool.
Fixpoint all_chars (p : ascii -> bool) (s : string) : bool :=
  match s with EmptyString => true | String c r => (p c && all_chars p r)%bool end.
(** What Ident::new (proc_macro) accepts: a word that starts with a letter or underscore. *)
Definition plain_ident (s : string) : bool :=
  match s with
  | EmptyString => false
  | String c r => (is_letter c && all_chars (fun c => is_letter c || is_digit c) r)%bool
  end.
(** What Ident::new_raw accepts after the r#. *)
Definition raw_ident (s : string) : bool :=
  (plain_ident s && negb (existsb (String.eqb s) ["self"; "Self"; "super"; "crate"; "_"])%string)%bool.
(** What format_ident! (quote) accepts: an identifier, possibly a raw one. *)
Definition valid_ident (s : string) : bool :=
  match s with
  | String c1 (String c2 r) =>
      if (Ascii.eqb c1 "r" && Ascii.eqb c2 "#")%bool then raw_ident r else plain_ident s
  | _ => plain_ident s
  end.
(** How names are spelt: the text of an identifier token, whether it is written r#text, and the two
    functions of convert_case the macro uses (a dependency: any two functions on strings). *)
Record spelling := mkSp { sp_text : nat -> string; sp_raw : nat -> bool; sp_snake : string -> string; sp_camel : string -> string }.
(** Ident::to_string *)
Definition printed (S : spelling) (n : nat) : string :=
  if sp_raw S n then ("r#" ++ sp_text S n)%string else sp_text S n.

(** ** Results *)
(** Positions in the input (the spans of errors): where syn's parser stopped, the name or the visibility of
    the item, attribute number k, the visibility or the type of field number i. *)
Inductive span := AtParse | AtName | AtVis | AtAttr (i k : nat) | AtFieldVis (i : nat) | AtFieldType (i : nat).
(** Result<A, Error> (166), or a panic of the macro. *)
Inductive result (A : Type) := Good (a : A) | Bad (msg : string) (at_ : span) | Crash.
Arguments Good {A}. Arguments Bad {A}. Arguments Crash {A}.
Definition rbind {A B} (r : result A) (k : A -> result B) : result B :=
  match r with Good a => k a | Bad m s => Bad m s | Crash => Crash end.
Notation "x <~ r ~~ k" := (rbind r (fun x => k)) (at level 100, r at next level, right associativity).
(** The messages (174, 184, 187, 537, 941, 1034). *)
Definition msg_parse : string := "define_varlen could not parse this as a struct".
Definition msg_named : string := "define_varlen requires named fields".
Definition msg_struct : string := "define_varlen requires a struct".
Definition msg_vis : string := "Visibility must be one of: (none), pub, pub(crate), pub(self), pub(super)".
Definition msg_array : string := "Fields annotated with #[varlen_array] must be of array type".
Definition msg_kinds : string := "Field must have at most one of #[varlen], #[varlen_array], #[controls_layout] attributes".

(** format_ident! (246, 563, 567, 929) panics when the string is no identifier. *)
Definition format_ident (s : string) : result string := if valid_ident s then Good s else Crash.

(** ** Fields *)
(** The closure [set_type] (1031-1039), with the span of the last error. *)
Definition set_type_e (st : field_type * option nat) (t : field_type) (k : nat) : field_type * option nat :=
  if negb (ft_is_normal (fst st)) then (fst st, Some k) else (t, snd st).
(** f.attrs.retain(..) (1041-1054): attribute number [k] comes next. *)
Fixpoint retain_e (st : field_type * option nat) (k : nat) (l : list attr) : (field_type * option nat) * list attr :=
  match l with
  | [] => (st, [])
  | a :: r =>
      let '(st1, keep) :=
        match a with
        | AVarlenArray => (set_type_e st FtVarlenArray k, false)
        | ALayout => (set_type_e st FtLength k, false)
        | AVarlen => (set_type_e st FtVarlen k, false)
        | AOther _ => (st, true)
        end in
      let '(st2, out) := retain_e st1 (Datatypes.S k) r in
      (st2, if keep then a :: out else out)
  end.
(** SimpleVisibility::try_parse (542-559) with its error (535-540). *)
Definition try_parse_e (v : visibility) (s : span) : result (simple_vis * simple_vis) :=
  match try_parse v with Some r => Good r | None => Bad msg_vis s end.
(** OneMeta::parse (583-594). *)
Definition one_parse_e (i : nat) (f : fdecl) : result one_meta :=
  r <~ try_parse_e (fd_vis f) (AtFieldVis i) ~~ Good (fd_attrs f, fst r, snd r, fd_name f).
(** push_normal (792-823), push_length (825-859), push_varlen (861-924), push_varlen_array (926-1009): in
    this order the visibility is parsed, the identifiers are made (x_layout, Init + UpperCamel of x;
    format_ident! drops the r# of an identifier, but to_string keeps it), the type is looked at. What is
    pushed is as in MacroFront.v. *)
Definition done (o : option groups) : result groups := match o with Some g => Good g | None => Crash end.
Definition push_e (S : spelling) (i : nat) (g : groups) (ft : field_type) (f : fdecl) : result groups :=
  match ft with
  | FtNormal => o <~ one_parse_e i f ~~ done (push_normal g f)
  | FtLength => o <~ one_parse_e i f ~~ done (push_length g f)
  | FtVarlen =>
      o <~ one_parse_e i f ~~
      l <~ format_ident (sp_text S (fd_name f) ++ "_layout")%string ~~
      p <~ format_ident ("Init" ++ sp_camel S (printed S (fd_name f)))%string ~~
      done (push_varlen g f)
  | FtVarlenArray =>
      o <~ one_parse_e i f ~~
      l <~ format_ident (sp_text S (fd_name f) ++ "_len")%string ~~
      p <~ format_ident ("Init" ++ sp_camel S (printed S (fd_name f)))%string ~~
      if fd_array f then done (push_varlen_array g f) else Bad msg_array (AtFieldType i)
  end.
(** One iteration of the loop of parse_fields (1027-1063). *)
Definition parse_one_e (S : spelling) (i : nat) (g : groups) (f : fdecl) : result groups :=
  let '((ft, err), kept) := retain_e (FtNormal, None) 0 (fd_attrs f) in
  match err with
  | Some k => Bad msg_kinds (AtAttr i k)
  | None => push_e S i g ft (mkFd (fd_name f) kept (fd_vis f) (fd_array f) (fd_ty f) (fd_len f))
  end.
(** parse_fields (1020-1066). *)
Fixpoint parse_from_e (S : spelling) (i : nat) (g : groups) (fs : list fdecl) : result groups :=
  match fs with
  | [] => Good g
  | f :: r => g' <~ parse_one_e S i g f ~~ parse_from_e S (Datatypes.S i) g' r
  end.
Definition parse_fields_e (S : spelling) (fs : list fdecl) : result groups := parse_from_e S 0 groups_new fs.

(** ** The macro *)
(** What the attribute is put on: an item syn does not parse as a DeriveInput (a function, ...), or a
    struct, enum or union with its visibility and name; a struct has named fields, or not. *)
Inductive body := BNamed (fs : list fdecl) | BTuple | BUnit | BEnum | BUnion.
Inductive item := IOther | IDecl (v : visibility) (name : nat) (b : body).
(** What define_varlen_impl computes for the expansion (169-262): visibilities of the module and of the
    items in it, the name of the module, the struct's name, the groups. *)
Record expansion := mkEx { ex_vis : simple_vis; ex_inner : simple_vis; ex_mod : string; ex_name : nat; ex_groups : groups }.
(** 178-188 *)
Definition named_fields (b : body) : result (list fdecl) :=
  match b with
  | BNamed fs => Good fs
  | BTuple | BUnit => Bad msg_named AtName
  | BEnum | BUnion => Bad msg_struct AtName
  end.
(** define_varlen_impl (168-262), up to the quote! *)
Definition define_varlen_impl (S : spelling) (d : item) : result expansion :=
  match d with
  | IOther => Bad msg_parse AtParse
  | IDecl v name b =>
      fs <~ named_fields b ~~
      vs <~ try_parse_e v AtVis ~~
      md <~ format_ident (sp_snake S (printed S name)) ~~
      g <~ parse_fields_e S fs ~~
      Good (mkEx (fst vs) (snd vs) md name g)
  end.
(** What the compiler sees in place of the item: the generated code, or the arguments of the attribute (159),
    the item as it was and ::core::compile_error!(msg) at a span (154-163). *)
Inductive piece := PExpansion (e : expansion) | PArgs | PItem (d : item) | PCompileError (msg : string) (at_ : span).
(** define_varlen (143-165); None: the macro panics. *)
Definition define_varlen (S : spelling) (d : item) : option (list piece) :=
  match define_varlen_impl S d with
  | Good e => Some [PExpansion e]
  | Bad m s => Some [PArgs; PItem d; PCompileError m s]
  | Crash => None
  end.

(** StrModel.v - programs that use the text of Str values (str.rs). *)
From Verif Require Export Program.

(** What core::str::from_utf8_unchecked(_mut) requires of the bytes (the contract of the standard
    library: well-formed UTF-8, Unicode standard, table 3-7). *)
Definition within (lo hi b : N) : bool := (lo <=? b) && (b <=? hi).
Definition contb (b : N) : bool := within 128 191 b.
Definition three (a b : N) : bool :=
  (a =? 224) && within 160 191 b || within 225 236 a && contb b
  || (a =? 237) && within 128 159 b || within 238 239 a && contb b.
Definition four (a b : N) : bool :=
  (a =? 240) && within 144 191 b || within 241 243 a && contb b || (a =? 244) && within 128 143 b.
Fixpoint valid_utf8 (s : list N) : bool :=
  match s with
  | [] => true
  | a :: r =>
      if a <=? 127 then valid_utf8 r else
      match r with
      | b :: r2 =>
          if within 194 223 a && contb b then valid_utf8 r2 else
          match r2 with
          | c :: r3 =>
              if three a b && contb c then valid_utf8 r3 else
              match r3 with
              | d :: r4 => if four a b && contb c && contb d then valid_utf8 r4 else false
              | [] => false
              end
          | [] => false
          end
      | [] => false
      end
  end.

(** Deref for Str (str.rs:94-103): the bytes of the inner array go to from_utf8_unchecked. Bytes that
    are not UTF-8 are undefined behaviour. *)
Definition str_text (k : lenk) (a : N) : M world (list N) :=
  s <- str_deref k a ;; if valid_utf8 s then ret s else undef UUtf8.
(** Str::mut_slice (str.rs:117-123) and what the client does with the &mut str: any change [g] of
    its bytes, e.g. make_ascii_uppercase(). Simplification: the new bytes are stored one by one, each
    through the accessors; client code that panics half-way is not modelled. *)
Fixpoint write_bytes (k : lenk) (a : N) (i : N) (bs : list N) : M world unit :=
  match bs with
  | [] => ret tt
  | b :: r => assign (TStr k) a (PInner (PIdx i)) [By b] ;;; write_bytes k a (i + 1) r
  end.
Definition str_edit (k : lenk) (a : N) (g : list N -> list N) : M world unit :=
  s <- str_text k a ;; write_bytes k a 0 (g s).

(** Programs: the operations of Program.v, reading the text of a Str, changing it through
    mut_slice(). *)
Inductive sop :=
| SPlain (o : op)
| SText (pl : place)                              (* &pl[..] *)
| SEdit (pl : place) (g : list N -> list N).      (* g on pl.mut_slice() *)
Inductive sout := Plain (o : out) | Text (s : list N).
Definition exec_s (o : sop) : config -> res config sout := fun '(w, sl) =>
  match o with
  | SPlain o =>
      match exec o (w, sl) with Ok r c => Ok (Plain r) c | Panic c => Panic c | UB u => UB u end
  | SText pl =>
      match (r <- resolve sl pl ;;
             match fst r with TNew (TArray _ k) => str_text k (snd r) | _ => undef UType end) w with
      | Ok s w' => Ok (Text s) (w', sl) | Panic w' => Panic (w', sl) | UB u => UB u
      end
  | SEdit pl g =>
      match (r <- resolve sl pl ;;
             match fst r with TNew (TArray _ k) => str_edit k (snd r) g | _ => undef UType end) w with
      | Ok _ w' => Ok (Plain OutUnit) (w', sl) | Panic w' => Panic (w', sl) | UB u => UB u
      end
  end.

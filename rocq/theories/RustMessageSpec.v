(** The messages of errors in the emitted Rust code: [impl std::fmt::Display], [write!] with its format string, and [Debug] where it is derived. *)
From Coq Require Import String Ascii List Arith NArith Bool.
From Verif Require Import Base LexerModel GrammarModel LRModel NamesModel RustTokenSpec RustSpec RustLRTextSpec.
Import ListNotations.
Local Open Scope string_scope.
Local Open Scope list_scope.

(** ** Declarations *)

(** The body of [impl std::fmt::Display for ty]. *)
Fixpoint display_of (ty : string) (l : list tree) : option (list tree) :=
  match l with
  | TId "impl" :: (TId "std" :: TPunct "::" :: TId "fmt" :: TPunct "::" :: TId "Display" :: TId "for" :: TId t :: TGroup Brace g :: _) as r => if String.eqb ty t then Some g else display_of ty r
  | _ :: r => display_of ty r
  | [] => None
  end.
(** The traits in [#[derive(..)] pub enum ty]. *)
Fixpoint derived (ty : string) (l : list tree) : option (list string) :=
  match l with
  | TPunct "#" :: (TGroup Bracket [TId "derive"; TGroup Paren g] :: TId "pub" :: TId "enum" :: TId t :: _) as r => if String.eqb ty t then listed (List.length g) parse_variant g else derived ty r
  | _ :: r => derived ty r
  | [] => None
  end.
Definition has_derive (file : list tree) (ty trait : string) : Prop := exists l, derived ty file = Some l /\ In trait l.
Definition implements_error (ty : string) (file : list tree) : bool :=
  (fix there (l : list tree) : bool :=
     match l with
     | TId "impl" :: (TId "std" :: TPunct "::" :: TId "error" :: TPunct "::" :: TId "Error" :: TId "for" :: TId t :: TGroup Brace [] :: _) as r => String.eqb ty t || there r
     | _ :: r => there r
     | [] => false
     end) file.

(** ** Formatting *)

Section Format.
(** How [{:?}] writes a character: in quotes and escaped. *)
Variable debug_char : N -> string.

(** All of them. *)
Fixpoint options (l : list (option string)) : option (list string) := match l with [] => Some [] | a :: l => get s <- a; get r <- options l; Some (s :: r) end.
(** [{:?}]; a variant without data has its own name. *)
Fixpoint debug (v : value) : option string :=
  match v with
  | VInt n _ => Some (decimal n)
  | VChar c => Some (debug_char c)
  | VVec l =>
    get ss <- options (map debug l); Some ("[" ++ String.concat ", " ss ++ "]")%string
  | VCon ["Some"] [(_, a)] => get x <- debug a; Some ("Some(" ++ x ++ ")")%string
  | VCon ["RangeInclusive"] [(_, a); (_, b)] => get x <- debug a; get y <- debug b; Some (x ++ "..=" ++ y)%string
  | VCon p [] => Some (last p "")
  | _ => None
  end.
(** [{}]. *)
Definition display (v : value) : option string := match v with VInt n _ => Some (decimal n) | _ => None end.
(** A format string with its arguments: all of them are used, in this order. *)
Fixpoint formatted (s : string) (vs : list value) : option string :=
  match s with
  | EmptyString => match vs with [] => Some "" | _ => None end
  | String "{" (String "}" r) => match vs with v :: vs => get x <- display v; get y <- formatted r vs; Some (x ++ y)%string | [] => None end
  | String "{" (String ":" (String "?" (String "}" r))) => match vs with v :: vs => get x <- debug v; get y <- formatted r vs; Some (x ++ y)%string | [] => None end
  | String "{" _ | String "}" _ => None
  | String c r => option_map (String c) (formatted r vs)
  end.

(** ** The function [fmt] *)

(** Code points that are characters; [std::char::from_u32] gives [None] for others. *)
Definition scalar (c : N) : bool := ((c <? 55296) || (57343 <? c) && (c <? 1114112))%N.
Definition char_outer : outer :=
  mkOuter []
    (fun p vs => match p, vs with ["std"; "char"; "from_u32"], [VInt c _] => Some (Val (if scalar c then VSome (VChar c) else VNone)) | _, _ => None end)
    (fun _ _ _ => None) (fun _ => None).
Section Arms.
Variables (P : parsers) (f : string). (* the formatter *)
(** The arms [p => write!(f, "..", e, ..),]. *)
Fixpoint parse_messages (fuel : nat) (l : list tree) : option (list (pat * string * exprs)) :=
  match fuel, l with
  | _, [] => Some []
  | S fuel, _ =>
    get (p, r) <- p_pat P l;
    match r with
    | TPunct "=>" :: TId "write" :: TPunct "!" :: TGroup Paren (TId f' :: TPunct "," :: TStr s :: a) :: r =>
      if String.eqb f f' then
        get args <- match a with [] => Some XNil | TPunct "," :: a => parse_args P a | _ => None end;
        match r with
        | [] => Some [(p, s, args)]
        | TPunct "," :: r => get v <- parse_messages fuel r; Some ((p, s, args) :: v)
        | _ => None
        end
      else None
    | _ => None
    end
  | O, _ => None
  end.
(** The first arm whose pattern fits. *)
Fixpoint message_of (l : list (pat * string * exprs)) (v : value) : option string :=
  match l with
  | [] => None
  | (p, s, args) :: l =>
    match matches p v with
    | Some (Some st) => match eval char_outer 0 (ETuple args) st with Some (_, Val (VTuple vs)) => formatted s vs | _ => None end
    | Some None => message_of l v
    | None => None
    end
  end.
Definition message (g : list tree) (v : value) : option string := get l <- parse_messages (List.length g) g; message_of l v.
End Arms.
(** What [to_string] gives for a value of a type. *)
Definition shows (file : list tree) (ty : string) (v : value) (s : string) : Prop :=
  exists g ps f b, display_of ty file = Some g /\ function_of "fmt" g = Some (ps, [TId "match"; TId "self"; TGroup Brace b]) /\ parameters (List.length ps) ps = Some [("self", false); (f, true)] /\
  eventually (fun n => message (rust_parsers n) f b v = Some s).
End Format.

(** ** What the messages are required to be *)

Definition unexpected_message (g : grammar) (got : token) (expected : list token) : string :=
  ("Unexpected token " ++ token_variant g got ++ ", expected one of: [" ++ String.concat ", " (map (token_variant g) expected) ++ "]")%string.
Definition lexer_message (debug_char : N -> string) (e : lexer_error) : string :=
  match e with
  | InvalidChar c => "Lexer got strange codepoint " ++ decimal c ++ ", char value is '" ++ (if scalar c then "Some(" ++ debug_char c ++ ")" else "None") ++ "'"
  | UnexpectedAlphabet (a, b) => "Lexer got char in unexpected range: " ++ decimal a ++ "..=" ++ decimal b
  end%string.

(** The part of C++ that declares methods of an abstract class, and the part that makes a message and throws it, for the texts of visitor.h and parser.cpp. *)
From Coq Require Import String List Arith NArith ZArith Bool.
From Verif Require Import Base TemplateModel CppTextSpec CppLexTextSpec.
Import ListNotations.
Local Open Scope string_scope.
Local Open Scope list_scope.

(** ** Methods *)

(** The parameters of a method, up to the closing parenthesis. *)
Fixpoint parse_declared (fuel : nat) (ts : list tok) : parsed (list param) :=
  match fuel with
  | O => None
  | S fuel =>
    get (p, r) <- parse_param ts;
    match r with
    | Mark Comma :: r => get (l, r) <- parse_declared fuel r; Some (p :: l, r)
    | Mark RParen :: r => Some ([p], r)
    | _ => None
    end
  end.
(** [virtual void m(..) = 0;], up to the end of the class. *)
Fixpoint parse_methods (fuel : nat) (ts : list tok) : option (list (string * list param)) :=
  match fuel, ts with
  | S _, Mark RBrace :: Mark Semi :: _ => Some []
  | S fuel, Word "virtual" :: Word "void" :: Word m :: Mark LParen :: r =>
    match match r with Mark RParen :: r => Some ([], r) | _ => parse_declared fuel r end with
    | Some (ps, Mark Assign :: Num 0%Z :: Mark Semi :: r) => option_map (cons (m, ps)) (parse_methods fuel r)
    | _ => None
    end
  | _, _ => None
  end.
(** The class of the text has these methods and no other members. *)
Definition methods_in (t : text) (c : string) (l : list (string * list param)) : Prop :=
  exists ts r, tokens t = Some ts /\ behind [Key Class; Word c; Mark LBrace; Word "public"; Mark Colon] ts = Some r /\ eventually (fun fuel => parse_methods fuel r = Some l).

(** ** Messages *)

(** What is written: a text, a variable, or the result of a function for a variable. *)
Inductive piece : Type :=
| PText (s : string)
| PVar (x : string)
| PCall (f : path) (x : string).
Inductive mstmt : Type :=
| MStream (x : string)                        (* std::ostringstream x; *)
| MWrite (x : string) (l : list piece)        (* x << .. << ..; *)
| MThrow (e : path) (x : string).             (* throw E(x.str()); *)
Definition parse_piece (ts : list tok) : parsed piece :=
  match ts with
  | Quoted s :: r => Some (PText s, r)
  | _ =>
    get (p, r) <- parse_path ts;
    match p, r with
    | _, Mark LParen :: Word x :: Mark RParen :: r => Some (PCall p x, r)
    | [x], _ => Some (PVar x, r)
    | _, _ => None
    end
  end.
Fixpoint parse_pieces (fuel : nat) (ts : list tok) : parsed (list piece) :=
  match fuel, ts with
  | S fuel, Mark Lesses :: r => get (a, r) <- parse_piece r; get (l, r) <- parse_pieces fuel r; Some (a :: l, r)
  | S _, Mark Semi :: r => Some ([], r)
  | _, _ => None
  end.
Definition parse_mstmt (fuel : nat) (ts : list tok) : parsed mstmt :=
  match ts with
  | Word "std" :: Mark Scope :: Word "ostringstream" :: Word x :: Mark Semi :: r => Some (MStream x, r)
  | Word "throw" :: r =>
    get (e, r) <- parse_path r;
    match r with Mark LParen :: Word x :: Mark Dot :: Word "str" :: Mark LParen :: Mark RParen :: Mark RParen :: Mark Semi :: r => Some (MThrow e x, r) | _ => None end
  | Word x :: r => get (l, r) <- parse_pieces fuel r; Some (MWrite x l, r)
  | _ => None
  end.
Fixpoint parse_message (fuel : nat) (ts : list tok) : parsed (list mstmt) :=
  match fuel, ts with
  | S _, Mark RBrace :: r => Some ([], r)
  | S fuel, _ => get (s, r) <- parse_mstmt fuel ts; get (l, r) <- parse_message fuel r; Some (s :: l, r)
  | O, _ => None
  end.
(** The text has a function with this header that consists of these statements. *)
Definition has_message (t h : text) (l : list mstmt) : Prop :=
  exists ts hs r, tokens t = Some ts /\ tokens h = Some hs /\ behind (hs ++ [Mark LBrace]) ts = Some r /\ eventually (fun fuel => exists r', parse_message fuel r = Some (l, r')).

(** Variables: texts and tokens; [call] is what functions return for tokens, a null pointer cannot be written. *)
Definition piece_text (call : path -> value -> option value) (vars : list (string * value)) (p : piece) : option string :=
  match p with
  | PText s => Some s
  | PVar x => match find_name x vars with Some (VStr s) => Some s | _ => None end
  | PCall f x => match find_name x vars with Some v => match call f v with Some (VStr s) => Some s | _ => None end | None => None end
  end.
Fixpoint pieces_text (call : path -> value -> option value) (vars : list (string * value)) (l : list piece) : option string :=
  match l with
  | [] => Some ""
  | p :: l => match piece_text call vars p, pieces_text call vars l with Some s, Some t => Some (s ++ t)%string | _, _ => None end
  end.
(** How the statements end; only [std::runtime_error] is known. *)
Fixpoint run_message (call : path -> value -> option value) (streams : list (string * string)) (vars : list (string * value)) (l : list mstmt) : option result :=
  match l with
  | [] => Some RNext
  | MStream x :: l => run_message call ((x, "") :: streams) vars l
  | MWrite x ps :: l =>
    match find_name x streams, pieces_text call vars ps with
    | Some s, Some t => run_message call ((x, (s ++ t)%string) :: streams) vars l
    | _, _ => None
    end
  | MThrow e x :: _ =>
    match e, find_name x streams with
    | ["std"; "runtime_error"], Some s => Some (RThrow s)
    | _, _ => None
    end
  end.
(** [lexer::get_token_name(..)] runs the body of that function, with [tk_type] for its parameter; nothing else can be called. *)
Definition naming_call (fuel : nat) (names : list string) (body : stmt) : path -> value -> option value := fun f v =>
  match f with
  | ["lexer"; "get_token_name"] =>
    match exec fuel (token_program names) (fun _ _ _ => None) (mkStore [("tk_type", v)] []) body with
    | Some (_, RReturn r) => r
    | _ => None
    end
  | _ => None
  end.

(** The part of C++ that declares the members of a class and initialises them in a constructor, for the text of lexer.h and lexer.cpp. *)
From Coq Require Import String List Arith NArith ZArith Bool.
From Verif Require Import Base TemplateModel CppTextSpec.
Import ListNotations.
Local Open Scope string_scope.
Local Open Scope list_scope.

(** The members of [class C { T x; std::istream &y; public: ..] with their types; none for a stream. *)
Fixpoint parse_members (ts : list tok) : option (list (option string * string)) :=
  match ts with
  | Word "public" :: Mark Colon :: _ => Some []
  | Word "std" :: Mark Scope :: Word "istream" :: Mark Amp :: Word x :: Mark Semi :: r => option_map (cons (None, x)) (parse_members r)
  | Word t :: Word x :: Mark Semi :: r => option_map (cons (Some t, x)) (parse_members r)
  | _ => None
  end.
Definition class_in (t : text) (c : string) (l : list (option string * string)) : Prop :=
  exists ts r, tokens t = Some ts /\ behind [Key Class; Word c; Mark LBrace] ts = Some r /\ parse_members r = Some l.

(** [x(e), y(f) {}]: the initialisers of a constructor that does nothing else. *)
Fixpoint parse_initialisers (fuel : nat) (ts : list tok) : option (list (string * expr)) :=
  match fuel, ts with
  | S fuel, Word x :: Mark LParen :: r =>
    match parse_expr fuel r with
    | Some (e, Mark RParen :: Mark LBrace :: Mark RBrace :: _) => Some [(x, e)]
    | Some (e, Mark RParen :: Mark Comma :: r) => option_map (cons (x, e)) (parse_initialisers fuel r)
    | _ => None
    end
  | _, _ => None
  end.
Definition initialises (t h : text) (l : list (string * expr)) : Prop :=
  exists ts hs r, tokens t = Some ts /\ tokens h = Some hs /\ behind (hs ++ [Mark Colon]) ts = Some r /\ eventually (fun fuel => parse_initialisers fuel r = Some l).

(** The values of the members, in the order of the class; every one of them must be initialised, and nothing else. *)
Definition initial (P : program) (st : store) (inits : list (string * expr)) (m : option string * string) : option value :=
  match find_name (snd m) inits with
  | Some e =>
    match eval P st e, fst m with
    | Some v, Some t => convert t v
    | Some (VStream l), None => Some (VStream l)
    | _, _ => None
    end
  | None => None
  end.
Fixpoint initials (P : program) (st : store) (inits : list (string * expr)) (ms : list (option string * string)) : option (list (string * value)) :=
  match ms with
  | [] => Some []
  | m :: ms => match initial P st inits m, initials P st inits ms with Some v, Some l => Some ((snd m, v) :: l) | _, _ => None end
  end.
Definition constructs (P : program) (header source head : text) (class : string) (st : store) (values : list (string * value)) : Prop :=
  exists ms inits, class_in header class ms /\ initialises source head inits /\ NoDup (map snd ms) /\ NoDup (map fst inits) /\ incl (map fst inits) (map snd ms) /\ initials P st inits ms = Some values.

(** Model of the text of visitor.h, lapex-cpp-codegen/src/lr_parser/mod.rs 90-109 and 218-222.  A text is a list of code points.  Definitions only. *)
From Coq Require Import String List Arith NArith Bool.
From Verif Require Import Base InputModel GrammarModel NamesModel TableModel TemplateModel TemplateFiles.
From Verif Require Import CppTextModel.
Import ListNotations.
Local Open Scope nat_scope.
Local Open Scope string_scope.
Local Open Scope list_scope.

(** mod.rs 95-101 and 104-105: the two lines of a rule. *)
Definition method_lines (comment name : string) : text := lines ["// " ++ comment; "virtual void " ++ name ++ "() = 0;"]%string.
(** mod.rs 91-107: the lines of a non-terminal, of [write_visitor_methods]. *)
Definition visitor_lines_of (g : grammar) (e : symbol * list (nat * rule)) : res name_err text :=
  let '(nt, rules) := e in
  do name <- get_non_terminal_name g nt;
  if negb (Nat.eqb (List.length rules) 1) then
    do l <- res_list (map (fun ir => do shown <- rule_text g (snd (snd ir)); Ok (method_lines shown (cpp_method_of name (fst ir)))) (enumerate rules));
    Ok (concat l)
  else match rules with
       | [] => Panic
       | r :: _ => do shown <- rule_text g (snd r); Ok (method_lines shown ("reduce_" ++ name)%string)
       end.
(** mod.rs 90-109, [write_visitor_methods]. *)
Definition write_visitor_methods (g : grammar) : res name_err text :=
  do l <- res_list (map (visitor_lines_of g) (rules_by_non_terminal g)); Ok (concat l).
(** mod.rs 218-222, [write_visitor_header]: the file visitor.h. *)
Definition visitor_h_text (g : grammar) : res name_err text :=
  do methods <- write_visitor_methods g; Ok (CppTextModel.fill [("visitor_methods", methods)] lr_visitor_h).

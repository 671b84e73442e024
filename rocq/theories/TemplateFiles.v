(** The templates of lapex-cpp-codegen, copied from the files named, and the keys for which the code supplies substitutions. *)
From Coq Require Import String Ascii List NArith.
From Verif Require Import TemplateModel.
Import ListNotations.
Local Open Scope string_scope.

(** The code points of an ASCII string. *)
Definition chars (s : string) : text := map N_of_ascii (list_ascii_of_string s).

(** lapex-cpp-codegen/src/lexer/lexer.h.tpl, the whole file. *)
Definition lexer_h : text := chars "#pragma once

#include ""tokens.h""
#include <istream>
#include <cstdint>

namespace lexer
{
    class Lexer
    {
        std::istream &in_chars;
        uint32_t ch;
        int err;
        size_t position;
        size_t start_pos;
        size_t end_pos;

    public:
        Lexer(std::istream &in_chars);
        TokenType next();
        size_t start();
        size_t end();
    };
}".

(** lapex-cpp-codegen/src/lexer/lexer.cpp.tpl, the whole file. *)
Definition lexer_cpp : text := chars "#include ""lexer.h""

namespace lexer
{
    Lexer::Lexer(std::istream &in) : in_chars(in), ch(-1), err(0), start_pos(0), end_pos(0), position(0) {}

    // Branchless UTF-8: https://github.com/skeeto/branchless-utf8
    void utf8_decode(std::istream &in, uint32_t *c, int *e)
    {
        static const char lengths[] = {
            1, 1, 1, 1, 1, 1, 1, 1, 1, 1, 1, 1, 1, 1, 1, 1,
            0, 0, 0, 0, 0, 0, 0, 0, 2, 2, 2, 2, 3, 3, 4, 0};
        static const int masks[] = {0x00, 0x7f, 0x1f, 0x0f, 0x07};
        static const uint32_t mins[] = {4194304, 0, 128, 2048, 65536};
        static const int shiftc[] = {0, 18, 12, 6, 0};
        static const int shifte[] = {0, 6, 4, 2, 0};

        char buf[4] = {0};
        in.read(buf, 1);
        uint8_t *s = (uint8_t *)buf;
        int len = lengths[s[0] >> 3];
        in.read(buf + 1, (len > 1) * (len - 1));

        /* Assume a four-byte character and load four bytes. Unused bits are
         * shifted out.
         */
        *c = (uint32_t)(s[0] & masks[len]) << 18;
        *c |= (uint32_t)(s[1] & 0x3f) << 12;
        *c |= (uint32_t)(s[2] & 0x3f) << 6;
        *c |= (uint32_t)(s[3] & 0x3f) << 0;
        *c >>= shiftc[len];

        /* Accumulate the various error conditions. */
        *e = (*c < mins[len]) << 6;      // non-canonical encoding
        *e |= ((*c >> 11) == 0x1b) << 7; // surrogate half?
        *e |= (*c > 0x10FFFF) << 8;      // out of range?
        *e |= (s[1] & 0xc0) >> 2;
        *e |= (s[2] & 0xc0) >> 4;
        *e |= (s[3]) >> 6;
        *e ^= 0x2a; // top two bits of each tail byte correct?
        *e >>= shifte[len];
    }

    size_t Lexer::start()
    {
        return this->start_pos;
    }
    size_t Lexer::end()
    {
        return this->end_pos;
    }

    TokenType Lexer::next()
    {
        uint32_t state = 0;
        this->start_pos = position;
        while (1)
        {
            if (this->ch == -1)
            {
                utf8_decode(this->in_chars, &this->ch, &this->err);
            }
            if (this->err)
            {
                return TokenType::TK_ERR;
            }

            /*{alphabet_switch}*/
            /*{automaton_switch}*/
            this->position += 1;
        }
        return TokenType::TK_ERR;
    }
}".

(** lapex-cpp-codegen/src/lexer/tokens.h.tpl, the whole file. *)
Definition tokens_h : text := chars "#pragma once

#include <cstdint>

namespace lexer
{
    enum class TokenType : uint32_t
    {
        TK_ERR = 0,
        TK_EOF = 1,
        /*{token_enum_variants}*/
    };
    
    const char *get_token_name(TokenType tk_type);
}".

(** lapex-cpp-codegen/src/lexer/tokens.cpp.tpl, the whole file. *)
Definition tokens_cpp : text := chars "#include ""tokens.h""

namespace lexer
{
    const char *get_token_name(TokenType tk_type) {
        /*{get_token_name_function}*/
    }
}".

(** lapex-cpp-codegen/src/ll_parser/parser.h.tpl, the whole file. *)
Definition ll_parser_h : text := chars "#pragma once

#include ""tokens.h""
#include ""visitor.h""
#include <functional>
#include <utility>

namespace parser
{

    template <class T>
    using Token = std::pair<lexer::TokenType, T>;

    template <class T>
    class Parser
    {
    private:
        std::function<Token<T>()> token_function;
        Visitor<T> &visitor;

    public:
        Parser(std::function<Token<T>()> token_function, Visitor<T> &visitor);

        void parse();
    };

}
".

(** lapex-cpp-codegen/src/ll_parser/parser.cpp.tpl, the whole file. *)
Definition ll_parser_cpp : text := chars "#include ""parser_impl.h""

#include <sstream>

namespace parser {
    void push_production_from_table(Symbol non_terminal, lexer::TokenType lookahead, std::stack<Symbol>& parse_stack) {
        /*{parser_table_switch}*/
    }


    void throw_unexpected_token_error(lexer::TokenType expected, lexer::TokenType got) {
        std::ostringstream os;
        os << ""Unexpected token '"" << lexer::get_token_name(got) << ""', expected token '"" << lexer::get_token_name(expected) << ""'"";
        throw std::runtime_error(os.str());
    }
}".

(** lapex-cpp-codegen/src/ll_parser/parser_impl.h.tpl, the whole file. *)
Definition ll_parser_impl_h : text := chars "#pragma once

#include ""parser.h""
#include <stack>
#include <queue>

#include <iostream>

namespace parser
{
    enum class SymbolKind : uint8_t
    {
        Terminal,
        NonTerminal,
        ExitNonTerminal
    };

    struct Symbol
    {
        SymbolKind kind;
        uint32_t identifier;
    };
    
    void push_production_from_table(Symbol non_terminal, lexer::TokenType lookahead, std::stack<Symbol> &parse_stack);

    void throw_unexpected_token_error(lexer::TokenType expected, lexer::TokenType got);
    
    enum class NonTerminalType : uint32_t
    {
        /*{non_terminal_enum_variants}*/
    };
    
    template <class T>
    void exit_visitor(Visitor<T>& visitor, NonTerminalType non_terminal)
    {
        /*{visitor_exit_switch}*/
    }

    template <class T>
    void enter_visitor(Visitor<T>& visitor, NonTerminalType non_terminal)
    {
        /*{visitor_enter_switch}*/
    }

    template <class T>
    Parser<T>::Parser(std::function<Token<T>()> token_function, Visitor<T> &visitor) : token_function(token_function), visitor(visitor) {}

    template <class T>
    void Parser<T>::parse()
    {
        std::queue<std::pair<lexer::TokenType, T>> lookahead;
        lookahead.push(this->token_function());

        std::stack<Symbol> parse_stack;
        Symbol end{SymbolKind::Terminal, static_cast<uint32_t>(lexer::TokenType::TK_EOF)};
        parse_stack.push(end);
        Symbol entry{SymbolKind::NonTerminal, static_cast<uint32_t>({grammar_entry_non_terminal})};
        parse_stack.push(entry);

        while (parse_stack.size() > 0)
        {
            Symbol current = parse_stack.top();
            parse_stack.pop();
            auto lookahead_token_and_data = lookahead.front();
            lexer::TokenType lookahead_tk = lookahead_token_and_data.first;
            if (current.kind == SymbolKind::ExitNonTerminal)
            {
                exit_visitor(this->visitor, static_cast<NonTerminalType>(current.identifier));
            }
            else if (current.kind != SymbolKind::Terminal)
            {
                Symbol nt_exit_symbol{SymbolKind::ExitNonTerminal, current.identifier};
                parse_stack.push(nt_exit_symbol);
                push_production_from_table(current, lookahead_tk, parse_stack);
                enter_visitor(this->visitor, static_cast<NonTerminalType>(current.identifier));
            }
            else
            {
                if (current.identifier != static_cast<uint32_t>(lookahead_tk))
                {
                    throw_unexpected_token_error(static_cast<lexer::TokenType>(current.identifier), lookahead_tk);
                }
                this->visitor.token(lookahead_tk, lookahead_token_and_data.second);
                lookahead.pop();
                lookahead.push(this->token_function());
            }
        }
    }
}
".

(** lapex-cpp-codegen/src/ll_parser/visitor.h.tpl, the whole file. *)
Definition ll_visitor_h : text := chars "#pragma once

#include ""tokens.h""

namespace parser
{
    template <class T>
    class Visitor
    {
    public:
        virtual void token(lexer::TokenType tk_type, T data) = 0;
        /*{visitor_methods}*/
    };
}".

(** lapex-cpp-codegen/src/lr_parser/parser.h.tpl, the whole file. *)
Definition lr_parser_h : text := chars "#pragma once

#include ""tokens.h""
#include ""visitor.h""
#include <functional>
#include <utility>

namespace parser
{

    template <class T>
    using Token = std::pair<lexer::TokenType, T>;

    template <class T>
    class Parser
    {
    private:
        std::function<Token<T>()> token_function;
        Visitor<T> &visitor;

    public:
        Parser(std::function<Token<T>()> token_function, Visitor<T> &visitor);

        void parse();
    };

}
".

(** lapex-cpp-codegen/src/lr_parser/parser.cpp.tpl, the whole file. *)
Definition lr_parser_cpp : text := chars "#include ""parser_impl.h""

#include <sstream>

namespace parser
{
    void throw_unexpected_token_error(const char* expected, lexer::TokenType got) {
        std::ostringstream os;
        os << ""Unexpected token '"" << lexer::get_token_name(got) << ""', expected one of: "" << expected;
        throw std::runtime_error(os.str());
    }

    Action determine_action(uint32_t state, const lexer::TokenType &lookahead_token)
    {
        /*{action_table}*/
    }

    void reduce_stack(uint32_t rule, std::vector<Symbol> &parse_stack, std::vector<Symbol> &rev_reduced_symbols)
    {
        /*{stack_reduce_table}*/
    }

    Transition retrieve_next_state(uint32_t state, const Symbol &current_symbol)
    {
        /*{goto_table}*/
    }
}".

(** lapex-cpp-codegen/src/lr_parser/parser_impl.h.tpl, the whole file. *)
Definition lr_parser_impl_h : text := chars "#pragma once

#include ""parser.h""
#include <queue>
#include <vector>

#include <iostream>

namespace parser
{
    enum class SymbolKind : uint8_t
    {
        Terminal,
        NonTerminal,
        State
    };

    struct Symbol
    {
        SymbolKind kind;
        uint32_t identifier;
    };

    enum class NonTerminalType : uint32_t
    {
        /*{non_terminal_enum_variants}*/
    };

    enum class ActionType : uint8_t
    {
        Shift,
        Reduce,
    };

    struct Action
    {
        ActionType action_type;
        uint16_t reduced_rule;
    };

    struct Transition
    {
        uint32_t next_state;
        bool is_accepting;
    };

    Action determine_action(uint32_t state, const lexer::TokenType &lookahead_tpken);

    void reduce_stack(uint32_t rule, std::vector<Symbol> &parse_stack, std::vector<Symbol> &rev_reduced_symbols);

    Transition retrieve_next_state(uint32_t state, const Symbol &current_symbol);

    template <class T>
    void reduce_visitor(Visitor<T> &visitor, const std::vector<Symbol> &rev_reduced_symbols, uint32_t rule)
    {
        /*{visitor_reduce_switch}*/
    }

    template <class T>
    Parser<T>::Parser(std::function<Token<T>()> token_function, Visitor<T> &visitor) : token_function(token_function), visitor(visitor) {}

    template <class T>
    void Parser<T>::parse()
    {
        std::queue<std::pair<lexer::TokenType, T>> lookahead;
        lookahead.push(this->token_function());

        std::vector<Symbol> parse_stack;
        Symbol entry_symbol{SymbolKind::State, static_cast<uint32_t>(/*{entry_state}*/)};
        parse_stack.push_back(entry_symbol);

        while (parse_stack.size() > 0)
        {
            auto next_token_and_data = lookahead.front();
            lexer::TokenType next_tk = next_token_and_data.first;
            Symbol next_symbol{SymbolKind::Terminal, static_cast<uint32_t>(next_tk)};

            uint32_t state = parse_stack.back().identifier;
            Action action = determine_action(state, next_tk);
            if (action.action_type == ActionType::Shift)
            {
                parse_stack.push_back(next_symbol);

                this->visitor.shift(next_tk, next_token_and_data.second);
                lookahead.pop();
                lookahead.push(this->token_function());
            }
            else if (action.action_type == ActionType::Reduce)
            {
                std::vector<Symbol> rev_reduced_symbols;
                reduce_stack(action.reduced_rule, parse_stack, rev_reduced_symbols);
                reduce_visitor(this->visitor, rev_reduced_symbols, action.reduced_rule);
            }
            Symbol current_symbol = parse_stack.back();
            uint32_t stack_state = parse_stack.at(parse_stack.size() - 2).identifier;
            Transition transition = retrieve_next_state(stack_state, current_symbol);
            if (transition.is_accepting)
            {
                parse_stack.pop_back();
                parse_stack.pop_back();
            }
            else
            {
                Symbol next_state_symbol{SymbolKind::State, transition.next_state};
                parse_stack.push_back(next_state_symbol);
            }
        }
    }
}
".

(** lapex-cpp-codegen/src/lr_parser/visitor.h.tpl, the whole file. *)
Definition lr_visitor_h : text := chars "#pragma once

#include ""tokens.h""

namespace parser
{
    template <class T>
    class Visitor
    {
    public:
        virtual void shift(lexer::TokenType tk_type, T data) = 0;
        /*{visitor_methods}*/
    };
}".

(** The templates with the keys substituted for them: lexer/mod.rs 92-101 and 146-157, ll_parser/mod.rs 192-232,
    lr_parser/mod.rs 158-222. *)
Definition cpp_templates : list (string * text * list string) :=
  [("lexer.h", lexer_h, []);
   ("lexer.cpp", lexer_cpp, ["alphabet_switch"; "automaton_switch"]);
   ("tokens.h", tokens_h, ["token_enum_variants"]);
   ("tokens.cpp", tokens_cpp, ["get_token_name_function"]);
   ("LL parser.h", ll_parser_h, []);
   ("LL parser.cpp", ll_parser_cpp, ["parser_table_switch"]);
   ("LL parser_impl.h", ll_parser_impl_h, ["visitor_enter_switch"; "visitor_exit_switch"; "grammar_entry_non_terminal"; "non_terminal_enum_variants"]);
   ("LL visitor.h", ll_visitor_h, ["visitor_methods"]);
   ("LR parser.h", lr_parser_h, []);
   ("LR parser.cpp", lr_parser_cpp, ["action_table"; "goto_table"; "stack_reduce_table"]);
   ("LR parser_impl.h", lr_parser_impl_h, ["non_terminal_enum_variants"; "visitor_reduce_switch"; "entry_state"]);
   ("LR visitor.h", lr_visitor_h, ["visitor_methods"])].

(** Model of the token lookahead of the lexers: stream_lex_base_t<S, I>::get_token, put_token and
    putback_token — /repo/adobe/implementation/lex_shared.hpp:427-475 over circular_queue
    (CircularQueue_Model.v).  [lex_stream_t] instantiates S = 2 (/repo/source/lex_stream.cpp:254).
    The characters and the parse callback are abstracted to the list of what the calls of
    parse_proc_m put: [Some t] one token, [None] nothing (a bypassed comment or white space).  At the
    end of the characters every round puts eof.  Line positions are not modelled. *)
From Verif Require Import Prelude CircularQueue_Model.

Section Model.
Context {T : Type}.
Variable eof : T.

Record lexer := mk_lexer { last_token : queue T; source : list (option T) }.

(** lex_shared.hpp:344-347 the constructor: last_token_m(S); [d] is T() *)
Definition start (d : T) (S : nat) (src : list (option T)) : lexer := mk_lexer (make d S) src.

(** lex_shared.hpp:430-452: while (last_token_m.empty()) { parse ... } *)
Fixpoint fill (q : queue T) (src : list (option T)) : option (queue T * list (option T)) :=
  if empty q then
    match src with
    | [] => match push_back q eof with Some q' => Some (q', []) | None => None end
    | None :: src' => fill q src'
    | Some t :: src' => match push_back q t with Some q' => fill q' src' | None => None end
    end
  else Some (q, src).

(** lex_shared.hpp:427-459 get_token: fill, front, pop_front *)
Definition get_token (l : lexer) : option (T * lexer) :=
  match fill (last_token l) (source l) with
  | None => None
  | Some (q, src) =>
    match front q, pop_front q with
    | Some t, Some q' => Some (t, mk_lexer q' src)
    | _, _ => None
    end
  end.

(** lex_shared.hpp:472-475 putback_token *)
Definition putback_token (l : lexer) : option lexer :=
  match putback (last_token l) with Some q => Some (mk_lexer q (source l)) | None => None end.

(** A history of calls, with what the get_tokens return *)
Inductive call := Get | Putback.
Fixpoint run (l : lexer) (cs : list call) : option (list T * lexer) :=
  match cs with
  | [] => Some ([], l)
  | Get :: cs' => match get_token l with
                  | None => None
                  | Some (t, l') => match run l' cs' with Some (ts, l'') => Some (t :: ts, l'') | None => None end
                  end
  | Putback :: cs' => match putback_token l with None => None | Some l' => run l' cs' end
  end.
End Model.

(** Model of the string conversions of Awl/String.h:240-340 where Char is char and the compiler is
    not MSVC, and of their use in Awl/LogString.h:50-56 (C85).

    - A string is the list of its characters, without the terminating zero that c_str() adds:
      bytes (0..255) for char, numbers for wchar_t (32 bits).
    - wcsrtombs and mbsrtowcs are those of the two locales the tests use: "C", which a program
      has until it calls setlocale, and a UTF-8 one.  Both are functions of the library of C, not
      of this one: they are written down here from their documentation (RFC 3629 for UTF-8).
      A call with a null destination does not change the source or the state of the conversion. *)
From Verif Require Import Common.
Local Open Scope Z_scope.

Inductive locale := CLocale | Utf8.

(** What a function that takes a pointer sees of the string *)
Fixpoint c_str (s : list Z) : list Z :=
  match s with
  | [] => []
  | c :: s => if c =? 0 then [] else c :: c_str s
  end.

(** wcrtomb; [None]: EILSEQ *)
Definition wcrtomb (l : locale) (w : Z) : option (list Z) :=
  match l with
  | CLocale => if (0 <=? w) && (w <? 128) then Some [w] else None
  | Utf8 =>
      if (w <? 0) || (0x10FFFF <? w) || ((0xD800 <=? w) && (w <=? 0xDFFF)) then None
      else if w <? 0x80 then Some [w]
      else if w <? 0x800 then Some [0xC0 + w / 64; 0x80 + w mod 64]
      else if w <? 0x10000 then Some [0xE0 + w / 4096; 0x80 + w / 64 mod 64; 0x80 + w mod 64]
      else Some [0xF0 + w / 262144; 0x80 + w / 4096 mod 64; 0x80 + w / 64 mod 64; 0x80 + w mod 64]
  end.
(** wcsrtombs of a C string *)
Fixpoint wcsrtombs (l : locale) (ws : list Z) : option (list Z) :=
  match ws with
  | [] => Some []
  | w :: ws => match wcrtomb l w, wcsrtombs l ws with
               | Some b, Some bs => Some (b ++ bs)
               | _, _ => None
               end
  end.

Definition is_cont (b : Z) : bool := (0x80 <=? b) && (b <? 0xC0).
(** mbrtowc: the character and the bytes left; a character that takes more bytes than it needs is
    rejected *)
Definition mbrtowc (l : locale) (bs : list Z) : option (Z * list Z) :=
  match l, bs with
  | _, [] => None
  | CLocale, b :: r => if (0 <=? b) && (b <? 128) then Some (b, r) else None
  | Utf8, b :: r =>
      if (0 <=? b) && (b <? 0x80) then Some (b, r)
      else if (0xC0 <=? b) && (b <? 0xE0) then
        match r with
        | b1 :: r => let w := (b - 0xC0) * 64 + (b1 - 0x80) in
                     if is_cont b1 && (0x80 <=? w) then Some (w, r) else None
        | _ => None
        end
      else if (0xE0 <=? b) && (b <? 0xF0) then
        match r with
        | b1 :: b2 :: r => let w := (b - 0xE0) * 4096 + (b1 - 0x80) * 64 + (b2 - 0x80) in
                           if is_cont b1 && is_cont b2 && (0x800 <=? w) && negb ((0xD800 <=? w) && (w <=? 0xDFFF))
                           then Some (w, r) else None
        | _ => None
        end
      else if (0xF0 <=? b) && (b <? 0xF8) then
        match r with
        | b1 :: b2 :: b3 :: r =>
            let w := (b - 0xF0) * 262144 + (b1 - 0x80) * 4096 + (b2 - 0x80) * 64 + (b3 - 0x80) in
            if is_cont b1 && is_cont b2 && is_cont b3 && (0x10000 <=? w) && (w <=? 0x10FFFF)
            then Some (w, r) else None
        | _ => None
        end
      else None
  end.
Fixpoint mbs_loop (fuel : nat) (l : locale) (bs : list Z) : option (list Z) :=
  match fuel, bs with
  | _, [] => Some []
  | O, _ => None
  | S f, _ => match mbrtowc l bs with
              | Some (w, r) => match mbs_loop f l r with Some ws => Some (w :: ws) | None => None end
              | None => None
              end
  end.
Definition mbsrtowcs (l : locale) (bs : list Z) : option (list Z) := mbs_loop (length bs) l bs.

(** String.h:240-258.  When a character cannot be converted the length is (size_t)-1, and the
    constructor of a string of that length throws std::length_error, a std::logic_error.  Otherwise
    the second call fills exactly the string of that length. *)
Definition encode_string (l : locale) (ws : list Z) : res (list Z) :=
  match wcsrtombs l (c_str ws) with Some bs => Ok bs | None => Throw LogicError end.
Definition decode_string (l : locale) (bs : list Z) : res (list Z) :=
  match mbsrtowcs l (c_str bs) with Some ws => Ok ws | None => Throw LogicError end.

(** String.h:262-340 where Char is char.  The narrow conversions construct a string from the
    pointer. *)
Definition from_a_string (s : list Z) : list Z := c_str s.
Definition to_a_string (s : list Z) : list Z := c_str s.
Definition from_w_string (l : locale) (ws : list Z) : res (list Z) := encode_string l ws.
(** String.h:322-325 wostream << std::string *)
Definition wout_string (l : locale) (out : list Z) (s : list Z) : res (list Z) :=
  let* ws := decode_string l s in Ok (out ++ ws).
(** LogString.h:54-56: a LogString from std::string and from std::wstring *)
Definition log_string_a (s : list Z) : list Z := from_a_string s.
Definition log_string_w (l : locale) (ws : list Z) : res (list Z) := from_w_string l ws.

(** JSON texts (the part used here: objects, arrays, strings, unsigned numbers), read by
    a machine with a stack, one character at a time; independent of what the library
    prints.  Not accepted though JSON: fractions, signs, exponents, true, false, null,
    escapes other than those of the quote and of the backslash. *)
From Coq Require Import Bool List Ascii String NArith.
From Verif Require Import AccessModel UserModel.
Import ListNotations.
Open Scope N_scope.

Notation text := (list ascii).
Definition txt (s : string) : text := list_ascii_of_string s.

Inductive json := JStr (s : text) | JNum (n : N) | JArr (l : list json) | JObj (l : list (text * json)).

(** what is open around the place of reading: an array with the values so far, an object
    with the members so far and the name of the next (latest first) *)
Inductive open_ := InArr (vs : list json) | InObj (kvs : list (text * json)) (k : text).
(** what may come next *)
Inductive mode :=
| Val (st : list open_)                       (* a value *)
| ArrStart (st : list open_)                  (* after [ *)
| ArrAfter (vs : list json) (st : list open_) (* after a value in an array *)
| ObjStart (st : list open_)                  (* after { *)
| ObjAfter (kvs : list (text * json)) (st : list open_)
| Key (kvs : list (text * json)) (st : list open_)             (* after a comma in an object *)
| Colon (kvs : list (text * json)) (k : text) (st : list open_)
| Done (v : json).
Inductive token := TLB | TRB | TLS | TRS | TColon | TComma | TStr (s : text) | TNum (n : N).

Definition deliver (v : json) (st : list open_) : mode :=
  match st with
  | [] => Done v
  | InArr vs :: st => ArrAfter (v :: vs) st
  | InObj kvs k :: st => ObjAfter ((k, v) :: kvs) st
  end.
Definition value (t : token) (st : list open_) : option mode :=
  match t with
  | TStr s => Some (deliver (JStr s) st)
  | TNum n => Some (deliver (JNum n) st)
  | TLS => Some (ArrStart st)
  | TLB => Some (ObjStart st)
  | _ => None
  end.
Definition feed (t : token) (m : mode) : option mode :=
  match m, t with
  | Val st, _ => value t st
  | ArrStart st, TRS => Some (deliver (JArr []) st)
  | ArrStart st, _ => value t (InArr [] :: st)
  | ArrAfter vs st, TComma => Some (Val (InArr vs :: st))
  | ArrAfter vs st, TRS => Some (deliver (JArr (rev vs)) st)
  | ObjStart st, TRB => Some (deliver (JObj []) st)
  | ObjStart st, TStr k => Some (Colon [] k st)
  | ObjAfter kvs st, TComma => Some (Key kvs st)
  | ObjAfter kvs st, TRB => Some (deliver (JObj (rev kvs)) st)
  | Key kvs st, TStr k => Some (Colon kvs k st)
  | Colon kvs k st, TColon => Some (Val (InObj kvs k :: st))
  | _, _ => None
  end.

(** between tokens, in a string, after a backslash in a string, in a number *)
Inductive lexer := LStart | LStr (acc : text) | LEsc (acc : text) | LNum (n : N).
Definition digit (c : ascii) : option N := let n := N_of_ascii c in if (48 <=? n) && (n <=? 57) then Some (n - 48) else None.
Definition with_mode (l : lexer) (m : option mode) : option (lexer * mode) := option_map (fun m => (l, m)) m.
Definition begin_ (c : ascii) (m : mode) : option (lexer * mode) :=
  match digit c with
  | Some d => Some (LNum d, m)
  | None =>
      if (c =? " ")%char then Some (LStart, m)
      else if (c =? """")%char then Some (LStr [], m)
      else if (c =? "{")%char then with_mode LStart (feed TLB m)
      else if (c =? "}")%char then with_mode LStart (feed TRB m)
      else if (c =? "[")%char then with_mode LStart (feed TLS m)
      else if (c =? "]")%char then with_mode LStart (feed TRS m)
      else if (c =? ":")%char then with_mode LStart (feed TColon m)
      else if (c =? ",")%char then with_mode LStart (feed TComma m)
      else if (N_of_ascii c =? 9) || (N_of_ascii c =? 10) || (N_of_ascii c =? 13) then Some (LStart, m)
      else None
  end.
Definition read1 (lm : lexer * mode) (c : ascii) : option (lexer * mode) :=
  let (l, m) := lm in
  match l with
  | LStart => begin_ c m
  | LStr acc =>
      if (c =? """")%char then with_mode LStart (feed (TStr (rev acc)) m)
      else if (c =? "\")%char then Some (LEsc acc, m)
      else if N_of_ascii c <? 32 then None else Some (LStr (c :: acc), m)
  | LEsc acc => if ((c =? """") || (c =? "\"))%char then Some (LStr (c :: acc), m) else None
  | LNum n =>
      match digit c with
      | Some d => if n =? 0 then None else Some (LNum (10 * n + d), m)
      | None => match feed (TNum n) m with Some m' => begin_ c m' | None => None end
      end
  end.
Fixpoint reads (s : text) (lm : lexer * mode) : option (lexer * mode) :=
  match s with [] => Some lm | c :: s => match read1 lm c with Some lm' => reads s lm' | None => None end end.
(** the value a text stands for *)
Definition parse (s : text) : option json :=
  match reads s (LStart, Val []) with
  | Some (LStart, Done v) => Some v
  | Some (LNum n, m) => match feed (TNum n) m with Some (Done v) => Some v | _ => None end
  | _ => None
  end.

(** ** The values the texts of accesses should stand for *)
Definition json_io (m : iomode) : json :=
  JObj [(txt "IOAccess", JStr (txt match m with MRead => "read" | MWrite => "write" | MAadd => "atomicAdd" | MAmul => "atomicMul" end))].
Definition json_area (a : N * N) : json := JObj [(txt "area", JObj [(txt "begin", JNum (fst a)); (txt "end", JNum (snd a))])].
Fixpoint json_arr {A} (f : A -> json) (n : nat) : arr A n -> list json :=
  match n with O => fun _ => [] | S m => fun x => f (fst x) :: json_arr f m (snd x) end.
Definition json_op (o : cop) : text := match o with CAnd => txt "and" | COr => txt "or" end.
Fixpoint json_val (t : ty) : val t -> json :=
  match t with
  | TIO => json_io
  | TArea => json_area
  | TArr t n o => fun v => JObj [(json_op o, JArr (json_arr (json_val t) n v))]
  | TComb t u o => fun v => JObj [(json_op o, JArr [json_val t (fst v); json_val u (snd v)])]
  end.
Definition json_access (a : raccess) : json :=
  JObj [(txt "resourceID", JNum (N.of_nat (r_id (a_res a)))); (txt "scopeLevel", JNum (N.of_nat (r_scope (a_res a)))); (txt "mode", json_val (a_ty a) (a_val a))].
Definition json_user (u : ruser) : json := JArr (map json_access (u_acc u)).

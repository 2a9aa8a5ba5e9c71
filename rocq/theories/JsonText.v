(** * The JSON texts of orders, character by character

    Model of sdd/tools/order.hh 24-186.  The parser of JSON documents is the one of RapidJSON
    (cereal/external/rapidjson/document.h), which is not in the repository: it is modelled from its documentation, for
    arrays, strings and integers.  Other values (objects, true, null, numbers with a fraction or an exponent), and texts
    that are not JSON, are refused here; in load_order they break the assertions of sdd/tools/order.hh 65 and 106, or those
    of GetString: undefined behaviour. *)

From Coq Require Import Ascii String List Bool Arith NArith ZArith Lia.
From Verif Require Import Base Orders OrdersProofs OrdersMore Text.
Import ListNotations.

Definition quote : ascii := """"%char.
Definition backslash : ascii := "\"%char.
Definition newline : ascii := "010"%char.

(** ** JSON documents: specification *)

Inductive jv : Type :=
| VStr (s : text)
| VInt (z : Z)
| VArr (l : list jv).

(** White space. *)
Definition ws (c : ascii) : bool := existsb (N.eqb (N_of_ascii c)) [32; 10; 13; 9]%N.
Definition blank (t : text) : Prop := Forall (fun c => ws c = true) t.

(** Characters that stand for themselves in strings: neither quotes, nor backslashes, nor control characters. *)
Definition plain (c : ascii) : bool :=
  (32 <=? N_of_ascii c)%N && negb (Ascii.eqb c quote) && negb (Ascii.eqb c backslash).

(** The escape sequences of one character. *)
Definition escape (e : ascii) : option ascii :=
  if Ascii.eqb e quote then Some quote
  else if Ascii.eqb e backslash then Some backslash
  else if Ascii.eqb e "/"%char then Some "/"%char
  else if Ascii.eqb e "b"%char then Some "008"%char
  else if Ascii.eqb e "f"%char then Some "012"%char
  else if Ascii.eqb e "n"%char then Some "010"%char
  else if Ascii.eqb e "r"%char then Some "013"%char
  else if Ascii.eqb e "t"%char then Some "009"%char
  else None.

(** Four hexadecimal digits. *)
Definition hex (c : ascii) : option N :=
  let n := N_of_ascii c in
  if (48 <=? n)%N && (n <=? 57)%N then Some (n - 48)%N
  else if (65 <=? n)%N && (n <=? 70)%N then Some (n - 55)%N
  else if (97 <=? n)%N && (n <=? 102)%N then Some (n - 87)%N
  else None.
Definition hex4 (a b c d : ascii) : option N :=
  match hex a, hex b, hex c, hex d with
  | Some a, Some b, Some c, Some d => Some (((a * 16 + b) * 16 + c) * 16 + d)%N
  | _, _, _, _ => None
  end.

(** The code points that need a second one, those that may be second, and what they mean together. *)
Definition high (n : N) : bool := (55296 <=? n)%N && (n <=? 56319)%N.
Definition low (n : N) : bool := (56320 <=? n)%N && (n <=? 57343)%N.
Definition pair_of (h l : N) : N := (65536 + (h - 55296) * 1024 + (l - 56320))%N.

(** UTF-8. *)
Definition utf8 (n : N) : text :=
  let cont k := ascii_of_N (128 + (n / k) mod 64)%N in
  if (n <? 128)%N then [ascii_of_N n]
  else if (n <? 2048)%N then [ascii_of_N (192 + n / 64)%N; cont 1%N]
  else if (n <? 65536)%N then [ascii_of_N (224 + n / 4096)%N; cont 64%N; cont 1%N]
  else [ascii_of_N (240 + n / 262144)%N; cont 4096%N; cont 64%N; cont 1%N].

(** What is between the quotes of a string, and the string. *)
Inductive chars : text -> text -> Prop :=
| ch_nil : chars [] []
| ch_plain c raw s : plain c = true -> chars raw s -> chars (c :: raw) (c :: s)
| ch_escape e k raw s : escape e = Some k -> chars raw s -> chars (backslash :: e :: raw) (k :: s)
| ch_unicode a b c d n raw s : hex4 a b c d = Some n -> high n = false -> chars raw s ->
    chars (backslash :: "u"%char :: a :: b :: c :: d :: raw) (utf8 n ++ s)
| ch_pair a b c d n a' b' c' d' n' raw s :
    hex4 a b c d = Some n -> high n = true -> hex4 a' b' c' d' = Some n' -> low n' = true -> chars raw s ->
    chars (backslash :: "u"%char :: a :: b :: c :: d :: backslash :: "u"%char :: a' :: b' :: c' :: d' :: raw)
          (utf8 (pair_of n n') ++ s).

(** Integers. *)
Inductive number : text -> Z -> Prop :=
| nu_pos n : number (decN n) (Z.of_N n)
| nu_neg n : number ("-"%char :: decN n) (- Z.of_N n).

Inductive value : text -> jv -> Prop :=
| g_str raw s : chars raw s -> value (quote :: raw ++ [quote]) (VStr s)
| g_int t z : number t z -> value t (VInt z)
| g_empty w : blank w -> value ("["%char :: w ++ ["]"%char]) (VArr [])
| g_arr t l : elements t l -> value ("["%char :: t ++ ["]"%char]) (VArr l)
with elements : text -> list jv -> Prop :=
| e_one w1 t w2 v : blank w1 -> value t v -> blank w2 -> elements (w1 ++ t ++ w2) [v]
| e_more w1 t w2 v r l : blank w1 -> value t v -> blank w2 -> elements r l ->
    elements (w1 ++ t ++ w2 ++ ","%char :: r) (v :: l).

(** A document is an array. *)
Definition document (t : text) (v : jv) : Prop :=
  exists w1 u w2 l, t = w1 ++ u ++ w2 /\ blank w1 /\ value u v /\ blank w2 /\ v = VArr l.

(** ** The parser: rapidjson::Document::Parse<0>, called in sdd/tools/order.hh 104-105 *)

Fixpoint skip (t : text) : text :=
  match t with c :: r => if ws c then skip r else t | [] => [] end.

Definition prepend (s : text) (x : option (text * text)) : option (text * text) :=
  match x with Some (t, r) => Some (s ++ t, r) | None => None end.

(** From the character that follows the opening quote. *)
Fixpoint pstr (t : text) : option (text * text) :=
  match t with
  | [] => None
  | c :: r =>
    if Ascii.eqb c backslash then
      match r with
      | [] => None
      | e :: r =>
        match escape e with
        | Some k => prepend [k] (pstr r)
        | None =>
          if Ascii.eqb e "u"%char then
            match r with
            | a :: b :: c :: d :: r =>
              match hex4 a b c d with
              | None => None
              | Some n =>
                if high n then
                  match r with
                  | x :: y :: a :: b :: c :: d :: r =>
                    if Ascii.eqb x backslash && Ascii.eqb y "u"%char then
                      match hex4 a b c d with
                      | Some n' => if low n' then prepend (utf8 (pair_of n n')) (pstr r) else None
                      | None => None
                      end
                    else None
                  | _ => None
                  end
                else prepend (utf8 n) (pstr r)
              end
            | _ => None
            end
          else None
        end
      end
    else if Ascii.eqb c quote then Some ([], r)
    else if (32 <=? N_of_ascii c)%N then prepend [c] (pstr r)
    else None
  end.

Definition pnum (t : text) : option (Z * text) :=
  let '(neg, t) := match t with
                   | c :: r => if Ascii.eqb c "-"%char then (true, r) else (false, t)
                   | [] => (false, t)
                   end in
  match t with
  | c :: r =>
    match digit c with
    | None => None
    | Some v => let '(n, r) := if N.eqb v 0 then (0%N, r) else digits r v in
                Some (if neg then - Z.of_N n else Z.of_N n, r)%Z
    end
  | [] => None
  end.

Fixpoint pvalue (n : nat) (t : text) : option (jv * text) :=
  match n with
  | 0 => None
  | S n =>
    match t with
    | [] => None
    | c :: r =>
      if Ascii.eqb c quote then
        match pstr r with Some (s, r) => Some (VStr s, r) | None => None end
      else if Ascii.eqb c "["%char then
        match skip r with
        | [] => None
        | c' :: r' =>
          if Ascii.eqb c' "]"%char then Some (VArr [], r')
          else match pelems n (c' :: r') with Some (l, r) => Some (VArr l, r) | None => None end
        end
      else match pnum t with Some (z, r) => Some (VInt z, r) | None => None end
    end
  end
with pelems (n : nat) (t : text) : option (list jv * text) :=
  match n with
  | 0 => None
  | S n =>
    match pvalue n (skip t) with
    | None => None
    | Some (v, r) =>
      match skip r with
      | [] => None
      | c :: r =>
        if Ascii.eqb c ","%char then
          match pelems n r with Some (l, r) => Some (v :: l, r) | None => None end
        else if Ascii.eqb c "]"%char then Some ([v], r)
        else None
      end
    end
  end.

(** The text is a C string: it ends at the first null character. *)
Fixpoint until_nul (t : text) : text :=
  match t with c :: r => if Ascii.eqb c "000"%char then [] else c :: until_nul r | [] => [] end.

(** A document: an array, and nothing but white space around it. *)
Definition json_read (t : text) : option jv :=
  let t := skip (until_nul t) in
  match pvalue (S (2 * length t)) t with
  | Some (VArr l, r) => match skip r with [] => Some (VArr l) | _ => None end
  | _ => None
  end.

(** ** Identifiers *)

(** C::Identifier, what print_identifier writes (sdd/tools/order.hh 118-148), and what mk_order_identifier returns
    (24-68). [None]: undefined behaviour, or std::terminate (an exception leaves a noexcept function). *)
Record identifiers : Type := {
  iU : Type;
  iprint : iU -> text;
  iread : jv -> option iU;
  i0 : iU
}.

(** mk_order_identifier<C, false> (57-68) and print_identifier<false> (137-147): std::string.  The std::string is built from
    a C string (66). *)
Definition strings : identifiers :=
  {| iU := text;
     iprint := fun s => quote :: s ++ [quote];
     iread := fun v => match v with VStr s => Some (until_nul s) | _ => None end;
     i0 := [] |}.

(** Values of int; conversion to an integral type of [bits] bits. *)
Definition is_int (z : Z) : bool := (- 2 ^ 31 <=? z)%Z && (z <? 2 ^ 31)%Z.
Definition wrap (bits : Z) (signed : bool) (z : Z) : Z :=
  let m := (z mod 2 ^ bits)%Z in
  if signed && (2 ^ (bits - 1) <=? m)%Z then (m - 2 ^ bits)%Z else m.

(** std::stoi: white space, a sign, and a non-empty sequence of digits; what follows is ignored. [None]:
    std::invalid_argument or std::out_of_range. *)
Definition space (c : ascii) : bool := existsb (N.eqb (N_of_ascii c)) [32; 9; 10; 11; 12; 13]%N.
Fixpoint skip_space (t : text) : text :=
  match t with c :: r => if space c then skip_space r else t | [] => [] end.
Definition stoi (t : text) : option Z :=
  let '(neg, t) := match skip_space t with
                   | c :: r => if Ascii.eqb c "-"%char then (true, r)
                               else if Ascii.eqb c "+"%char then (false, r) else (false, c :: r)
                   | [] => (false, [])
                   end in
  match t with
  | c :: _ =>
    match digit c with
    | None => None
    | Some _ => let n := Z.of_N (fst (digits t 0)) in
                let z := if neg then (- n)%Z else n in
                if is_int z then Some z else None
    end
  | [] => None
  end.

(** mk_order_identifier<C, true> (27-54). *)
Definition read_int (v : jv) : option Z :=
  match v with
  | VInt z => if is_int z then Some z else None
  | VStr s => stoi (until_nul s)
  | VArr _ => None
  end.

(** print_identifier<true> (124-134), for an integral type that is not a character type: bool excluded. *)
Definition integers (bits : Z) (signed : bool) : identifiers :=
  {| iU := Z;
     iprint := dec;
     iread := fun v => option_map (wrap bits signed) (read_int v);
     i0 := 0%Z |}.

(** The same for the character types (char, unsigned char, std::uint8_t...), which are integral: os << x writes the
    character itself. *)
Definition characters : identifiers :=
  {| iU := ascii;
     iprint := fun c => [c];
     iread := fun v => option_map (fun z => ascii_of_N (Z.to_N (z mod 256))) (read_int v);
     i0 := "000"%char |}.

Section Orders.
  Variable ID : identifiers.
  Notation U := (iU ID).

  (** ** dump_order, sdd/tools/order.hh 150-186: what is between the brackets, then the whole text.  std::endl is a
      newline. *)
  Fixpoint dump_rest (fuel : nat) (o : order U) (current : option nat) (fst : bool) : res (oerr U) text :=
    match fuel with
    | 0 => Err EFuel
    | S fuel =>
      match current with
      | None => Ok []
      | Some i =>
        match deref o i with
        | None => Err EUndefined
        | Some n =>
          rbind (match n_nested n with
                 | Some k => rbind (dump_rest fuel o (Some k) true) (fun t => Ok ("["%char :: t ++ ["]"%char]))
                 | None => Ok (iprint ID (usr (n_id n)))
                 end) (fun t =>
          rbind (dump_rest fuel o (n_next n) false) (fun r =>
            Ok ((if fst then [] else [","%char]) ++ t ++ [newline] ++ r)))
        end
      end
    end.
  Definition dump_text (o : order U) : res (oerr U) text :=
    rbind (dump_rest (S (length (o_nodes o))) o (o_head o) true) (fun t => Ok ("["%char :: t ++ ["]"%char])).

  (** ** load_order, sdd/tools/order.hh 95-114.  The identifiers of the document are read first: the outcome is the same,
      since any failure is undefined behaviour. *)
  Fixpoint decode (v : jv) : option (json U) :=
    match v with
    | VArr l =>
      option_map JArray
        ((fix all (l : list jv) : option (list (json U)) :=
            match l with
            | [] => Some []
            | v :: l => match decode v, all l with Some j, Some js => Some (j :: js) | _, _ => None end
            end) l)
    | _ => option_map JId (iread ID v)
    end.
  Fixpoint decode_all (l : list jv) : option (list (json U)) :=
    match l with
    | [] => Some []
    | v :: l => match decode v, decode_all l with Some j, Some js => Some (j :: js) | _, _ => None end
    end.

  Definition load_text (t : text) (counter : N) : res (oerr U) (option (builder U) * N) :=
    match t with
    | [] => Ok (None, counter)
    | _ =>
      match json_read t with
      | None => Err EUndefined
      | Some v =>
        match decode v with
        | None => Err EUndefined
        | Some j => rbind (load_order U (i0 ID) (fun _ => true) j counter) (fun r => Ok (Some (fst r), snd r))
        end
      end
    end.
End Orders.

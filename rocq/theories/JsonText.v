(** A grammar of JSON texts (RFC 8259), and a proof that it is unambiguous. This is specification, used by C75 (the text
    written by tracing.cc) and C76 (outputs through text); nothing in it models code of the repository.

    Simplifications: bytes from 0x80 on are taken as they are (validity of UTF-8 is not required), and of the \u escapes only
    those of the 128 ASCII characters are in the grammar. *)
From Coq Require Import String Ascii List Bool Arith Lia.
Import ListNotations.
Local Open Scope string_scope.
Local Open Scope list_scope.
Local Open Scope nat_scope.

(** A JSON value; a number is kept as it is written. *)
Inductive tree : Type :=
| TNull | TBool (b : bool) | TNum (lexeme : string) | TStr (s : string) | TArr (l : list tree) | TObj (l : list (string * tree)).

Definition dquote : ascii := ascii_of_nat 34.
Definition bslash : ascii := ascii_of_nat 92.
Definition one (c : ascii) : string := String c EmptyString.

(** ** Tokens *)
Definition is_ws (c : ascii) : bool :=
  match nat_of_ascii c with 9 | 10 | 13 | 32 => true | _ => false end.
Fixpoint all_chars (p : ascii -> bool) (s : string) : bool :=
  match s with EmptyString => true | String c s' => p c && all_chars p s' end.
Definition ws (s : string) : Prop := all_chars is_ws s = true.

Definition is_digit (c : ascii) : bool := (48 <=? nat_of_ascii c) && (nat_of_ascii c <=? 57).
Definition digits (s : string) : Prop := s <> "" /\ all_chars is_digit s = true.
(** number = [ - ] int [ . digits ] [ (e|E) [+|-] digits ], where int is 0 or does not begin with 0 *)
Definition number (s : string) : Prop := exists sign int frac expo,
  s = (sign ++ int ++ frac ++ expo)%string /\
  (sign = "" \/ sign = "-") /\
  (int = "0" \/ exists c r, int = String c r /\ is_digit c = true /\ c <> "0"%char /\ all_chars is_digit r = true) /\
  (frac = "" \/ exists d, frac = ("." ++ d)%string /\ digits d) /\
  (expo = "" \/ exists e g d, expo = (e ++ g ++ d)%string /\ (e = "e" \/ e = "E") /\ (g = "" \/ g = "+" \/ g = "-") /\ digits d).

(** A character that stands for itself in a string: not a control character, quote or backslash. *)
Definition plain (c : ascii) : bool := (32 <=? nat_of_ascii c) && negb (Ascii.eqb c dquote) && negb (Ascii.eqb c bslash).
(** The two character escapes *)
Definition escape (c : ascii) : option ascii :=
  if Ascii.eqb c dquote then Some dquote else if Ascii.eqb c bslash then Some bslash
  else match c with
  | "/"%char => Some "/"%char | "b"%char => Some (ascii_of_nat 8) | "f"%char => Some (ascii_of_nat 12)
  | "n"%char => Some (ascii_of_nat 10) | "r"%char => Some (ascii_of_nat 13) | "t"%char => Some (ascii_of_nat 9)
  | _ => None
  end.
Definition hex (c : ascii) : option nat :=
  let n := nat_of_ascii c in
  if (48 <=? n) && (n <=? 57) then Some (n - 48)
  else if (65 <=? n) && (n <=? 70) then Some (n - 55)
  else if (97 <=? n) && (n <=? 102) then Some (n - 87) else None.

(** [chars s b]: between the quotes, [b] denotes the string [s]. *)
Inductive chars : string -> string -> Prop :=
| c_end : chars "" ""
| c_plain : forall c s b, plain c = true -> chars s b -> chars (String c s) (String c b)
| c_escape : forall c d s b, escape c = Some d -> chars s b -> chars (String d s) (String bslash (String c b))
| c_unicode : forall h1 h2 n1 n2 s b, hex h1 = Some n1 -> hex h2 = Some n2 -> n1 < 8 -> chars s b ->
    chars (String (ascii_of_nat (16 * n1 + n2)) s)
          (String bslash (String "u" (String "0" (String "0" (String h1 (String h2 b)))))).

(** ** Values *)
Inductive value : tree -> string -> Prop :=
| v_null : value TNull "null"
| v_true : value (TBool true) "true"
| v_false : value (TBool false) "false"
| v_num : forall s, number s -> value (TNum s) s
| v_str : forall s b, chars s b -> value (TStr s) (one dquote ++ b ++ one dquote)
| v_arr0 : forall w, ws w -> value (TArr []) ("[" ++ w ++ "]")
| v_arr : forall l b, elements l b -> value (TArr l) ("[" ++ b ++ "]")
| v_obj0 : forall w, ws w -> value (TObj []) ("{" ++ w ++ "}")
| v_obj : forall l b, members l b -> value (TObj l) ("{" ++ b ++ "}")
with elements : list tree -> string -> Prop :=
| e_one : forall w1 w2 t s, ws w1 -> ws w2 -> value t s -> elements [t] (w1 ++ s ++ w2)
| e_more : forall w1 w2 t s l b, ws w1 -> ws w2 -> value t s -> elements l b -> elements (t :: l) (w1 ++ s ++ w2 ++ "," ++ b)
with members : list (string * tree) -> string -> Prop :=
| m_one : forall w1 w2 w3 w4 k kb t s, ws w1 -> ws w2 -> ws w3 -> ws w4 -> chars k kb -> value t s ->
    members [(k, t)] (w1 ++ (one dquote ++ kb ++ one dquote) ++ w2 ++ ":" ++ w3 ++ s ++ w4)
| m_more : forall w1 w2 w3 w4 k kb t s l b, ws w1 -> ws w2 -> ws w3 -> ws w4 -> chars k kb -> value t s -> members l b ->
    members ((k, t) :: l) (w1 ++ (one dquote ++ kb ++ one dquote) ++ w2 ++ ":" ++ w3 ++ s ++ w4 ++ "," ++ b).

(** A document: a value with white space around it. *)
Definition document (t : tree) (text : string) : Prop := exists w1 s w2, ws w1 /\ ws w2 /\ value t s /\ text = (w1 ++ s ++ w2)%string.

Scheme value_mut := Minimality for value Sort Prop
  with elements_mut := Minimality for elements Sort Prop
  with members_mut := Minimality for members Sort Prop.
Combined Scheme grammar_ind from value_mut, elements_mut, members_mut.

(** ** A parser that accepts every text of the grammar (and more) *)
Fixpoint skip_ws (s : string) : string :=
  match s with String c s' => if is_ws c then skip_ws s' else s | EmptyString => s end.
Definition numchar (c : ascii) : bool :=
  is_digit c || match c with "-"%char | "+"%char | "."%char | "e"%char | "E"%char => true | _ => false end.
Fixpoint span (p : ascii -> bool) (s : string) : string * string :=
  match s with
  | String c s' => if p c then let r := span p s' in (String c (fst r), snd r) else (EmptyString, s)
  | EmptyString => (EmptyString, EmptyString)
  end.
Fixpoint parse_chars (s : string) : option (string * string) :=
  match s with
  | EmptyString => None
  | String c s' =>
    if Ascii.eqb c dquote then Some (EmptyString, s')
    else if Ascii.eqb c bslash then
      match s' with
      | String d s'' =>
        match escape d with
        | Some e => match parse_chars s'' with Some (x, r) => Some (String e x, r) | None => None end
        | None =>
          match s'' with
          | String _ (String _ (String h1 (String h2 s'''))) =>
            match hex h1, hex h2, parse_chars s''' with
            | Some n1, Some n2, Some (x, r) => Some (String (ascii_of_nat (16 * n1 + n2)) x, r)
            | _, _, _ => None
            end
          | _ => None
          end
        end
      | EmptyString => None
      end
    else match parse_chars s' with Some (x, r) => Some (String c x, r) | None => None end
  end.
Fixpoint strip (p s : string) : option string :=
  match p, s with
  | EmptyString, _ => Some s
  | String c p', String d s' => if Ascii.eqb c d then strip p' s' else None
  | _, _ => None
  end.

Fixpoint parse_value (fuel : nat) (s : string) : option (tree * string) :=
  match fuel with
  | 0 => None
  | S f =>
    match s with
    | EmptyString => None
    | String c s' =>
      if Ascii.eqb c dquote then match parse_chars s' with Some (x, r) => Some (TStr x, r) | None => None end
      else if Ascii.eqb c "[" then
        match skip_ws s' with
        | String "]" r => Some (TArr [], r)
        | _ => match parse_elements f s' with Some (l, r) => Some (TArr l, r) | None => None end
        end
      else if Ascii.eqb c "{" then
        match skip_ws s' with
        | String "}" r => Some (TObj [], r)
        | _ => match parse_members f s' with Some (l, r) => Some (TObj l, r) | None => None end
        end
      else if Ascii.eqb c "n" then match strip "ull" s' with Some r => Some (TNull, r) | None => None end
      else if Ascii.eqb c "t" then match strip "rue" s' with Some r => Some (TBool true, r) | None => None end
      else if Ascii.eqb c "f" then match strip "alse" s' with Some r => Some (TBool false, r) | None => None end
      else if numchar c then let r := span numchar s in Some (TNum (fst r), snd r)
      else None
    end
  end
with parse_elements (fuel : nat) (s : string) : option (list tree * string) :=
  match fuel with
  | 0 => None
  | S f =>
    match parse_value f (skip_ws s) with
    | Some (t, r) =>
      match skip_ws r with
      | String "," r' => match parse_elements f r' with Some (l, r'') => Some (t :: l, r'') | None => None end
      | String "]" r' => Some ([t], r')
      | _ => None
      end
    | None => None
    end
  end
with parse_members (fuel : nat) (s : string) : option (list (string * tree) * string) :=
  match fuel with
  | 0 => None
  | S f =>
    match skip_ws s with
    | String c s' =>
      if Ascii.eqb c dquote then
        match parse_chars s' with
        | Some (k, r0) =>
          match skip_ws r0 with
          | String ":" r1 =>
            match parse_value f (skip_ws r1) with
            | Some (t, r) =>
              match skip_ws r with
              | String "," r' => match parse_members f r' with Some (l, r'') => Some ((k, t) :: l, r'') | None => None end
              | String "}" r' => Some ([(k, t)], r')
              | _ => None
              end
            | None => None
            end
          | _ => None
          end
        | None => None
        end
      else None
    | EmptyString => None
    end
  end.

Definition parse (text : string) : option tree :=
  match parse_value (S (String.length text)) (skip_ws text) with
  | Some (t, r) => match skip_ws r with EmptyString => Some t | _ => None end
  | None => None
  end.

(** ** Completeness *)
Lemma append_assoc_s : forall a b c : string, ((a ++ b) ++ c = a ++ b ++ c)%string.
Proof. induction a as [|x a IH]; intros b c; cbn [append]; [reflexivity|]. rewrite IH. reflexivity. Qed.
Lemma append_nil_s : forall a : string, (a ++ "" = a)%string.
Proof. induction a as [|x a IH]; cbn [append]; [reflexivity|]. rewrite IH. reflexivity. Qed.
Lemma length_app_s : forall a b : string, String.length (a ++ b)%string = String.length a + String.length b.
Proof. induction a as [|x a IH]; intro b; cbn [append String.length]; [reflexivity|]. rewrite IH. reflexivity. Qed.

Definition starts (p : ascii -> bool) (s : string) : bool := match s with String c _ => p c | EmptyString => false end.

Lemma skip_ws_app : forall w s, ws w -> skip_ws (w ++ s)%string = skip_ws s.
Proof.
  unfold ws. induction w as [|c w IH]; intros s H; cbn [append skip_ws all_chars] in *; [reflexivity|].
  apply andb_true_iff in H. destruct H as [-> H]. apply IH. exact H.
Qed.
Lemma skip_ws_stop : forall s, starts is_ws s = false -> skip_ws s = s.
Proof. intros [|c s] H; cbn [skip_ws starts] in *; [reflexivity|]. rewrite H. reflexivity. Qed.

Lemma span_app : forall p a s, all_chars p a = true -> starts p s = false -> span p (a ++ s)%string = (a, s).
Proof.
  intros p. induction a as [|c a IH]; intros s H S; cbn [append span all_chars] in *.
  - destruct s as [|d s]; [reflexivity|]. cbn [starts span] in *. rewrite S. reflexivity.
  - apply andb_true_iff in H. destruct H as [-> H]. rewrite IH by assumption. reflexivity.
Qed.
Lemma all_chars_app : forall p a b, all_chars p (a ++ b)%string = all_chars p a && all_chars p b.
Proof. intros p a b. induction a as [|c a IH]; cbn [append all_chars]; [reflexivity|]. rewrite IH, andb_assoc. reflexivity. Qed.
Lemma all_chars_impl : forall (p q : ascii -> bool) s, (forall c, p c = true -> q c = true) -> all_chars p s = true -> all_chars q s = true.
Proof.
  intros p q s H. induction s as [|c s IH]; cbn [all_chars]; [reflexivity|]. intro A. apply andb_true_iff in A. destruct A as [A B].
  rewrite (H c A), IH by exact B. reflexivity.
Qed.
Lemma digit_numchar : forall c, is_digit c = true -> numchar c = true.
Proof. intros c H. unfold numchar. rewrite H. reflexivity. Qed.

Lemma number_chars : forall s, number s -> all_chars numchar s = true /\ exists c r, s = String c r /\ (is_digit c = true \/ c = "-"%char).
Proof.
  intros s (sign & int & frac & expo & -> & S & I & F & E). split.
  - rewrite !all_chars_app.
    assert (A1 : all_chars numchar sign = true) by (destruct S as [->| ->]; reflexivity).
    assert (A2 : all_chars numchar int = true).
    { destruct I as [->|(c & r & -> & D & _ & R)]; [reflexivity|]. cbn [all_chars]. rewrite (digit_numchar c D).
      apply (all_chars_impl is_digit); [exact digit_numchar|exact R]. }
    assert (D : forall d, digits d -> all_chars numchar d = true).
    { intros d [_ R]. apply (all_chars_impl is_digit); [exact digit_numchar|exact R]. }
    assert (A3 : all_chars numchar frac = true) by (destruct F as [->|(d & -> & R)]; [reflexivity|]; cbn [append all_chars]; rewrite D by exact R; reflexivity).
    assert (A4 : all_chars numchar expo = true).
    { destruct E as [->|(e & g & d & -> & X & G & R)]; [reflexivity|]. rewrite !all_chars_app, (D d R).
      destruct X as [->| ->], G as [->|[->| ->]]; reflexivity. }
    rewrite A1, A2, A3, A4. reflexivity.
  - destruct S as [->| ->]; [|eexists _, _; split; [reflexivity|right; reflexivity]].
    destruct I as [->|(c & r & -> & D & _ & R)].
    + eexists _, _. split; [reflexivity|left; reflexivity].
    + eexists _, _. split; [reflexivity|left; exact D].
Qed.

Lemma plain_not : forall c, plain c = true -> Ascii.eqb c dquote = false /\ Ascii.eqb c bslash = false.
Proof.
  intros c H. unfold plain in H. apply andb_true_iff in H. destruct H as [H B]. apply andb_true_iff in H. destruct H as [_ A].
  split; [destruct (Ascii.eqb c dquote)|destruct (Ascii.eqb c bslash)]; (reflexivity || discriminate).
Qed.

Lemma parse_chars_app : forall s b, chars s b -> forall r, parse_chars (b ++ String dquote r)%string = Some (s, r).
Proof.
  intros s b H. induction H as [|c s b P _ IH|c d s b E _ IH|h1 h2 n1 n2 s b H1 H2 L _ IH]; intro r.
  - reflexivity.
  - cbn [append parse_chars]. destruct (plain_not c P) as [-> ->]. rewrite IH. reflexivity.
  - cbn [append parse_chars].
    change (Ascii.eqb bslash dquote) with false. change (Ascii.eqb bslash bslash) with true. cbn iota. rewrite E, IH. reflexivity.
  - cbn [append parse_chars].
    change (Ascii.eqb bslash dquote) with false. change (Ascii.eqb bslash bslash) with true. cbn iota.
    change (escape "u") with (@None ascii). cbn iota. rewrite H1, H2, IH. reflexivity.
Qed.

Ltac brute c := destruct c as [[] [] [] [] [] [] [] []]; intro; first [discriminate | repeat split; congruence || reflexivity].

(** What a value begins with. *)
Lemma value_start : forall t s, value t s -> exists c r, s = String c r /\ is_ws c = false /\ c <> "]"%char /\ c <> "}"%char.
Proof.
  intros t s H. destruct H; try (eexists _, _; split; [reflexivity|]; repeat split; (discriminate || reflexivity)).
  destruct (number_chars s H) as (_ & c & r & -> & D). exists c, r. split; [reflexivity|].
  destruct D as [D| ->]; [|repeat split; discriminate].
  revert D. brute c.
Qed.

Lemma elements_start : forall l b, elements l b -> forall r, exists c r', skip_ws (b ++ r)%string = String c r' /\ c <> "]"%char.
Proof.
  intros l b H r. destruct H as [w1 w2 t s W1 W2 V|w1 w2 t s l b W1 W2 V E];
    destruct (value_start t s V) as (c & x & -> & C1 & C2 & _); rewrite !append_assoc_s, skip_ws_app by exact W1;
    cbn [append skip_ws]; rewrite C1; eexists _, _; split; [reflexivity|exact C2|reflexivity|exact C2].
Qed.
Lemma members_start : forall l b, members l b -> forall r, exists r', skip_ws (b ++ r)%string = String dquote r'.
Proof.
  intros l b H r. destruct H as [w1 w2 w3 w4 k kb t s W1 W2 W3 W4 C V|w1 w2 w3 w4 k kb t s l b W1 W2 W3 W4 C V M];
    rewrite !append_assoc_s, skip_ws_app by exact W1; cbn [append one]; rewrite skip_ws_stop by reflexivity; eexists; reflexivity.
Qed.

Definition follow (r : string) : Prop := starts numchar r = false.
Lemma follow_ws : forall w r, ws w -> (starts numchar r = false) -> follow (w ++ r)%string.
Proof.
  intros [|c w] r H F; [exact F|]. unfold ws in H. cbn [all_chars] in H. apply andb_true_iff in H. destruct H as [H _].
  unfold follow. cbn [append starts]. revert H. brute c.
Qed.

Lemma complete :
  (forall t s, value t s -> forall fuel r, S (String.length s) <= fuel -> follow r -> parse_value fuel (s ++ r)%string = Some (t, r)) /\
  (forall l b, elements l b -> forall fuel r, S (S (String.length b)) <= fuel -> parse_elements fuel (b ++ String "]" r)%string = Some (l, r)) /\
  (forall l b, members l b -> forall fuel r, S (S (String.length b)) <= fuel -> parse_members fuel (b ++ String "}" r)%string = Some (l, r)).
Proof.
  apply grammar_ind.
  - intros [|f] r L _; [lia|]. reflexivity.
  - intros [|f] r L _; [lia|]. reflexivity.
  - intros [|f] r L _; [lia|]. reflexivity.
  - (* number *)
    intros s N [|f] r L FO; [lia|]. destruct (number_chars s N) as (A & c & x & E & D).
    assert (NC : numchar c = true) by (destruct D as [D| ->]; [apply digit_numchar; exact D|reflexivity]).
    pose proof (span_app numchar s r A FO) as SP. subst s. cbn [append parse_value] in *.
    assert (K : Ascii.eqb c dquote = false /\ Ascii.eqb c "[" = false /\ Ascii.eqb c "{" = false /\ Ascii.eqb c "n" = false /\ Ascii.eqb c "t" = false /\ Ascii.eqb c "f" = false).
    { destruct D as [D| ->]; [|repeat split; reflexivity]. revert D. brute c. }
    destruct K as (-> & -> & -> & -> & -> & ->). rewrite NC, SP. reflexivity.
  - (* string *)
    intros s b C [|f] r L _; [lia|]. rewrite !append_assoc_s. cbn [append one parse_value].
    change (Ascii.eqb dquote dquote) with true. cbn iota. rewrite (parse_chars_app s b C). reflexivity.
  - intros w W [|f] r L _; [lia|]. rewrite !append_assoc_s. cbn [append parse_value].
    change (Ascii.eqb "[" dquote) with false. change (Ascii.eqb "[" "[") with true. cbn iota.
    rewrite skip_ws_app by exact W. reflexivity.
  - intros l b E IH [|f] r L _; [lia|]. rewrite !append_assoc_s. cbn [append parse_value String.length] in *.
    change (Ascii.eqb "[" dquote) with false. change (Ascii.eqb "[" "[") with true. cbn iota.
    destruct (elements_start l b E (String "]" r)) as (c & x & -> & NC).
    rewrite length_app_s in L. cbn [String.length] in L. rewrite IH by lia.
    destruct (ascii_dec c "]"); [contradiction|]. clear - NC.
    destruct c as [[] [] [] [] [] [] [] []]; first [reflexivity|congruence].
  - intros w W [|f] r L _; [lia|]. rewrite !append_assoc_s. cbn [append parse_value].
    change (Ascii.eqb "{" dquote) with false. change (Ascii.eqb "{" "[") with false. change (Ascii.eqb "{" "{") with true. cbn iota.
    rewrite skip_ws_app by exact W. reflexivity.
  - intros l b E IH [|f] r L _; [lia|]. rewrite !append_assoc_s. cbn [append parse_value String.length] in *.
    change (Ascii.eqb "{" dquote) with false. change (Ascii.eqb "{" "[") with false. change (Ascii.eqb "{" "{") with true. cbn iota.
    destruct (members_start l b E (String "}" r)) as (x & ->).
    rewrite length_app_s in L. cbn [String.length] in L. rewrite IH by lia. reflexivity.
  - (* elements *)
    intros w1 w2 t s W1 W2 V IH [|f] r L; [lia|]. rewrite !append_assoc_s. cbn [parse_elements].
    rewrite !length_app_s in L. rewrite skip_ws_app by exact W1.
    destruct (value_start t s V) as (c & x & E & C1 & _). rewrite skip_ws_stop by (rewrite E; cbn [append starts]; exact C1).
    rewrite IH; [|lia|apply follow_ws; [exact W2|reflexivity]].
    rewrite skip_ws_app by exact W2. rewrite skip_ws_stop by reflexivity. reflexivity.
  - intros w1 w2 t s l b W1 W2 V IH E IHE [|f] r L; [lia|]. rewrite !append_assoc_s. cbn [parse_elements].
    rewrite !length_app_s in L. cbn [String.length] in L. rewrite skip_ws_app by exact W1.
    destruct (value_start t s V) as (c & x & Es & C1 & _). rewrite skip_ws_stop by (rewrite Es; cbn [append starts]; exact C1).
    rewrite IH; [|lia|apply follow_ws; [exact W2|reflexivity]].
    rewrite skip_ws_app by exact W2. cbn [append]. rewrite skip_ws_stop by reflexivity. rewrite IHE by lia. reflexivity.
  - (* members *)
    intros w1 w2 w3 w4 k kb t s W1 W2 W3 W4 C V IH [|f] r L; [lia|]. rewrite !append_assoc_s. cbn [parse_members].
    rewrite !length_app_s in L. cbn [String.length] in L. rewrite skip_ws_app by exact W1.
    cbn [append one]. rewrite skip_ws_stop by reflexivity. change (Ascii.eqb dquote dquote) with true. cbn iota.
    rewrite (parse_chars_app k kb C). rewrite skip_ws_app by exact W2. rewrite skip_ws_stop by reflexivity.
    rewrite skip_ws_app by exact W3.
    destruct (value_start t s V) as (c & x & Es & C1 & _). rewrite skip_ws_stop by (rewrite Es; cbn [append starts]; exact C1).
    rewrite IH; [|lia|apply follow_ws; [exact W4|reflexivity]].
    rewrite skip_ws_app by exact W4. rewrite skip_ws_stop by reflexivity. reflexivity.
  - intros w1 w2 w3 w4 k kb t s l b W1 W2 W3 W4 C V IH M IHM [|f] r L; [lia|]. rewrite !append_assoc_s. cbn [parse_members].
    rewrite !length_app_s in L. cbn [String.length] in L. rewrite skip_ws_app by exact W1.
    cbn [append one]. rewrite skip_ws_stop by reflexivity. change (Ascii.eqb dquote dquote) with true. cbn iota.
    rewrite (parse_chars_app k kb C). rewrite skip_ws_app by exact W2. rewrite skip_ws_stop by reflexivity.
    rewrite skip_ws_app by exact W3.
    destruct (value_start t s V) as (c & x & Es & C1 & _). rewrite skip_ws_stop by (rewrite Es; cbn [append starts]; exact C1).
    rewrite IH; [|lia|apply follow_ws; [exact W4|reflexivity]].
    rewrite skip_ws_app by exact W4. cbn [append]. rewrite skip_ws_stop by reflexivity. rewrite IHM by lia. reflexivity.
Qed.

Lemma parse_complete : forall t text, document t text -> parse text = Some t.
Proof.
  intros t text (w1 & s & w2 & W1 & W2 & V & ->). unfold parse. rewrite skip_ws_app by exact W1.
  destruct (value_start t s V) as (c & x & Es & C1 & _). rewrite skip_ws_stop by (rewrite Es; cbn [append starts]; exact C1).
  rewrite (proj1 complete t s V); [|rewrite !length_app_s; lia|rewrite <- (append_nil_s w2); apply follow_ws; [exact W2|reflexivity]].
  rewrite <- (append_nil_s w2), skip_ws_app by exact W2. reflexivity.
Qed.

(** A text is the document of at most one value. *)
Theorem json_unambiguous : forall t t' text, document t text -> document t' text -> t = t'.
Proof. intros t t' text H H'. apply parse_complete in H, H'. congruence. Qed.

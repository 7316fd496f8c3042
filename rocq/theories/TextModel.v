(** Model of gen/decl.go and gen/printer.go at the level
    of text: what is printed, character by character.  Definitions only.

    [g.data] is ["cur"] whenever it is printed (decl.go:132-139).  The text is what
    is handed to imports.Process (printer.go:19-21), which adds imports and white
    space. *)
From Coq Require Import ZArith String Ascii List Bool.
From Verif Require Import Base Ast InspectModel GoLang GenModel GenPrint.
Import ListNotations.
Open Scope string_scope.
Open Scope list_scope.
Open Scope Z_scope.

Definition nl : string := String (ascii_of_nat 10) EmptyString.
Definition tab : string := String (ascii_of_nat 9) EmptyString.
(** One [printf] after the other. *)
Fixpoint join (l : list string) : string :=
  match l with [] => EmptyString | s :: l' => String.append s (join l') end.

Section Text.
Variable camel : string -> string.
Variable r : resolver.

(** decl.go:318-324 [integer]. *)
Definition integerS (i : integer) : outcome string := z <- integerOf r i ;; Ok (showZ z).

(** decl.go:339-358 [tipe]. *)
Fixpoint tipeS (t : type) : outcome string :=
  match t with
  | TNul => Ok "string"
  | TInt sz _ => Ok (join ["uint"; showZ sz])
  | TChar => Ok "byte"
  | TPtr => Ok "int"
  | TStruct n => Ok (join ["*"; camel n])
  | TFixed b s => n <- integerS s ;; g <- tipeS b ;; Ok (join ["["; n; "]"; g])
  | TVar b _ => g <- tipeS b ;; Ok (join ["[]"; g])
  end.

(** decl.go:310-312 [lengthCheck], 314-316 [assertEnd]. *)
Definition lengthCheckS (min : string) : string :=
  join ["if len(cur) < "; min; " { return nil, errors.New(""data too short"") }"; nl].
Definition assertEndS : string :=
  join ["if len(cur) > 0 { return nil, errors.New(""trailing data disallowed"") }"; nl].

(** decl.go:326-337 [conditional]. *)
Definition clauseS (v : string) (g : irange) : outcome string :=
  match rhigh g with
  | None => l <- integerS (rlow g) ;; Ok (join [v; " == "; l])
  | Some h => l <- integerS (rlow g) ;; h' <- integerS h ;; Ok (join ["("; l; " <= "; v; " && "; v; " <= "; h'; ")"])
  end.
Fixpoint joinOrS (cs : list string) : string :=
  match cs with
  | [] => EmptyString
  | [c] => c
  | c :: cs' => join [c; " || "; joinOrS cs']
  end.
Definition conditionalS (v : string) (l : intlist) : outcome string := cs <- mapM (clauseS v) l ;; Ok (joinOrS cs).

(** decl.go:204-218 [parseIntType]. *)
Definition parseIntTypeS (lhs : string) (sz : Z) (cst : option intlist) : outcome string :=
  let n := sz / 8 in
  check <- match cst with
           | None => Ok EmptyString
           | Some l =>
               c <- conditionalS lhs l ;;
               Ok (join ["if !("; c; ") {"; nl; "return nil, errors.New(""integer constraint violated"")"; nl; "}"; nl])
           end ;;
  Ok (join [lengthCheckS (showZ n);
            if n =? 1 then join [lhs; " = cur[0]"; nl] else join [lhs; " = binary.BigEndian.Uint"; showZ sz; "(cur)"; nl];
            check;
            join ["cur = cur["; showZ n; ":]"; nl]]).

(** decl.go:302-308 [ref]. *)
Definition refS (recv : string) (f : idref) : string :=
  if String.eqb (rscope f) "" then join [recv; "."; camel (rname f)] else join [rscope f; "."; camel (rname f)].

(** decl.go:279-300 [constrained]. *)
Definition constrainedS (recv : string) (c : lconstraint) (body : string) : outcome string :=
  '(check, n) <- match c with
    | LLeftover i => k <- integerS i ;; Ok (lengthCheckS k, join ["len(cur)-"; k])
    | LRef f => let n := join ["int("; refS recv f; ")"] in Ok (lengthCheckS n, n)
    end ;;
  Ok (join [check; join ["restore := cur["; n; ":]"; nl]; join ["cur = cur[:"; n; "]"; nl];
            body; assertEndS; join ["cur = restore"; nl]]).

(** decl.go:260-267: an array up to the end of the data. *)
Definition restS (lhs g body : string) : string :=
  join [join [lhs; " = make([]"; g; ", 0)"; nl];
        join ["for len(cur) > 0 {"; nl; "var tmp "; g; nl; body; lhs; " = append("; lhs; ", tmp)"; nl; "}"; nl]].

(** decl.go:167-202 [parseType], 220-250 [parseArray]. *)
Fixpoint parseTypeS (recv lhs : string) (t : type) : outcome string :=
  match t with
  | TNul =>
      Ok (join ["i := bytes.IndexByte(cur, 0)"; nl;
                "if i < 0 { return nil, errors.New(""could not parse nul-term string"") }"; nl;
                join [lhs; ", cur = string(cur[:i]), cur[i+1:]"; nl]])
  | TInt sz cst => parseIntTypeS lhs sz cst
  | TChar => parseIntTypeS lhs 8 None
  | TPtr => Ok (join [lhs; " = len(data) - len(cur)"; nl])
  | TStruct n =>
      match Struct r n with
      | None => Panic "struct not found"
      | Some s =>
          Ok (join ["var err error"; nl;
                    join [lhs; " = new("; camel n; ")"; nl];
                    join ["cur, err = "; lhs; ".Parse(cur"; join (map (fun c => join [", "; c]) (scontexts s)); ")"; nl];
                    "if err != nil { return nil, err }"; nl])
      end
  | TFixed b s =>
      n <- integerS s ;;
      body <- parseTypeS recv (join [lhs; "[idx]"]) b ;;
      Ok (join ["for idx := 0; idx < "; n; "; idx++ {"; nl; body; "}"; nl])
  | TVar b (Some (LRef f)) =>
      let size := join ["int("; refS recv f; ")"] in
      g <- tipeS b ;;
      body <- parseTypeS recv (join [lhs; "[idx]"]) b ;;
      Ok (join [join [lhs; " = make([]"; g; ", "; size; ")"; nl];
                join ["for idx := 0; idx < "; size; "; idx++ {"; nl; body; "}"; nl]])
  | TVar b None => g <- tipeS b ;; body <- parseTypeS recv "tmp" b ;; Ok (restS lhs g body)
  | TVar b (Some (LLeftover k)) =>
      g <- tipeS b ;; body <- parseTypeS recv "tmp" b ;; constrainedS recv (LLeftover k) (restS lhs g body)
  end.

(** decl.go:142-165 [parseMember], 252-277 [parseUnionMember]. *)
Fixpoint parseMemberS (recv : string) (m : member) {struct m} : outcome string :=
  let parseMembersS := fix parseMembersS (ms : list member) : outcome string :=
    match ms with
    | [] => Ok EmptyString
    | m :: ms' => s <- parseMemberS recv m ;; ss <- parseMembersS ms' ;; Ok (join [s; ss])
    end in
  b <- match m with
       | MField n t => parseTypeS recv (join [recv; "."; camel n]) t
       | MUnion _ tag len cs =>
           cases <- (fix parseCasesS (cs : list ucase) : outcome string :=
             match cs with
             | [] => Ok EmptyString
             | UCase None ms :: cs' =>
                 b <- parseMembersS ms ;; rest <- parseCasesS cs' ;; Ok (join ["default:"; nl; b; rest])
             | UCase (Some l) ms :: cs' =>
                 c <- conditionalS (refS recv tag) l ;;
                 b <- parseMembersS ms ;; rest <- parseCasesS cs' ;; Ok (join ["case "; c; ":"; nl; b; rest])
             end) cs ;;
           let sw := join ["switch {"; nl; cases; "}"; nl] in
           match len with None => Ok sw | Some c => constrainedS recv c sw end
       | MEOS => Ok assertEndS
       | MIgnore => Ok (join ["cur = []byte{}"; nl])
       | MFail => Ok "return nil, errors.New(""disallowed case"")"
       end ;;
  Ok (join ["{"; nl; b; "}"; nl]).

(** decl.go:93-117 [structMemberDecl], [structUnionMemberDecl]. *)
Definition fieldS (n : string) (t : type) : outcome string := g <- tipeS t ;; Ok (join [tab; camel n; " "; g; nl]).
Fixpoint memberDeclS (m : member) {struct m} : outcome string :=
  match m with
  | MField n t => fieldS n t
  | MUnion _ _ _ cs =>
      (fix casesDecl (cs : list ucase) : outcome string :=
        match cs with
        | [] => Ok EmptyString
        | UCase _ ms :: cs' =>
            d <- (fix membersDecl (ms : list member) : outcome string :=
                   match ms with
                   | [] => Ok EmptyString
                   | MFail :: ms' | MIgnore :: ms' => membersDecl ms'
                   | m :: ms' => a <- memberDeclS m ;; b <- membersDecl ms' ;; Ok (join [a; b])
                   end) ms ;;
            rest <- casesDecl cs' ;; Ok (join [d; rest])
        end) cs
  | MEOS => Ok EmptyString
  | MFail | MIgnore => Panic "unexpected type"
  end.

(** decl.go:63-69 [context], 85-91 [structDecl]. *)
Definition typeDeclS (n fields : string) : string := join ["type "; n; " struct {"; nl; fields; "}"; nl; nl].
Definition contextS (c : context) : outcome string :=
  fs <- mapM (fun f => fieldS (fst f) (snd f)) (cmembers c) ;; Ok (typeDeclS (camel (cname c)) (join fs)).
Definition structDeclS (s : struct) : outcome string :=
  fs <- mapM memberDeclS (members_of s) ;; Ok (typeDeclS (camel (sname s)) (join fs)).

(** decl.go:360-366 [contextSignature], 368-374 [contextArgs]. *)
Definition signatureS (ns : list string) : string := join (map (fun n => join [", "; n; " "; camel n]) ns).
Definition argsS (ns : list string) : string := join (map (fun n => join [", "; n]) ns).

(** decl.go:129-140 [parse]. *)
Definition parseFuncS (recv : string) (s : struct) : outcome string :=
  ms <- mapM (parseMemberS recv) (members_of s) ;;
  Ok (join ["func ("; recv; " *"; camel (sname s); ") Parse(data []byte"; signatureS (scontexts s); ") ([]byte, error) {"; nl;
            "cur := data"; nl; join ms; "return cur, nil"; nl; "}"; nl; nl]).

(** decl.go:119-127 [parseConstructor]. *)
Definition ctorFuncS (recv : string) (s : struct) : string :=
  join ["func "; join ["Parse"; camel (sname s)]; "(data []byte"; signatureS (scontexts s); ") (*"; camel (sname s); ", error) {"; nl;
        join [recv; " := new("; camel (sname s); ")"; nl];
        join ["_, err := "; recv; ".Parse(data"; argsS (scontexts s); ")"; nl];
        "if err != nil { return nil, err }"; nl;
        join ["return "; recv; ", nil"; nl]; "}"; nl; nl].

(** decl.go:71-83 [structure]. *)
Definition structureS (s : struct) : outcome string :=
  if Extern s then Ok EmptyString
  else
    recv <- receiverName (sname s) ;;
    d <- structDeclS s ;; f <- parseFuncS recv s ;; Ok (join [d; f; ctorFuncS recv s]).

(** decl.go:51-61 [file]. *)
Definition fileS (f : file) : outcome string :=
  cs <- mapM contextS (fcontexts f) ;; ss <- mapM structureS (fstructs f) ;; Ok (join [join cs; join ss]).
End Text.

(** printer.go:23-33 [header], [markgenerated], [pkg]. *)
Definition markS : string := join ["// Code generated by trunnel. DO NOT EDIT."; nl; nl].
Definition pkgS (pkg : string) : string := join ["package "; pkg; nl; nl].

(** decl.go:12-19 [Marshallers], 30-49 [files], [init]: the text before imports are added. *)
Definition MarshallersText (camel : string -> string) (pkg : string) (os : nat -> orders) (fs : list file) : outcome string :=
  r <- NewResolverFiles os fs ;; ts <- mapM (fileS camel r) fs ;; Ok (join [markS; pkgS pkg; join ts]).

(** Tokens as produced by the external scanner crate [ress] 0.6.3
    ([RefToken], [RefItem], [Span]; imported at /repo/src/lib.rs:51-54).
    The crate's source is not in /repo, so these types are read off their uses
    in lib.rs and off the crate's public names; payloads lib.rs never inspects
    (quote kind, number base) are dropped. *)
From Verif Require Export Text.

Inductive keyword :=
| KAwait | KBreak | KCase | KCatch | KClass | KConst | KContinue | KDebugger
| KDefault | KImport | KDelete | KDo | KElse | KEnum | KExport | KExtends | KFinally
| KFor | KFunction | KIf | KIn | KImplements | KInstanceOf | KInterface
| KLet | KNew | KPackage | KPrivate | KProtected | KPublic | KStatic
| KReturn | KSuper | KSwitch | KThis | KThrow | KTry | KTypeOf | KVar
| KVoid | KWhile | KWith | KYield.

Inductive punct :=
| PAnd | PAssign | PAsterisk | PBitwiseNot | PCaret | PCloseBrace
| PCloseBracket | PCloseParen | PColon | PComma | PForwardSlash
| PGreaterThan | PLessThan | PMinus | PModulo | PNot | POpenBrace
| POpenBracket | POpenParen | PPeriod | PPipe | PPlus | PQuestionMark
| PSemiColon | PSpread | PUnsignedRightShiftAssign | PStrictEquals
| PStrictNotEquals | PUnsignedRightShift | PLeftShiftAssign
| PRightShiftAssign | PExponentAssign | PLogicalAnd | PLogicalOr | PEqual
| PNotEqual | PAddAssign | PSubtractAssign | PMultiplyAssign
| PDivideAssign | PBitwiseAndAssign | PBitwiseOrAssign
| PBitwiseXOrAssign | PIncrement | PDecrement | PLeftShift | PRightShift
| PGreaterThanEqual | PLessThanEqual | PModuloAssign | PExponent
| PFatArrow.

(** Decidable equality of the two enumerations (Rust: [derive(PartialEq)]), by index. *)
Definition keyword_index (x : keyword) : N :=
  (match x with
   | KAwait => 0 | KBreak => 1 | KCase => 2 | KCatch => 3 | KClass => 4 | KConst => 5
   | KContinue => 6 | KDebugger => 7 | KDefault => 8 | KImport => 9 | KDelete => 10
   | KDo => 11 | KElse => 12 | KEnum => 13 | KExport => 14 | KExtends => 15 | KFinally => 16
   | KFor => 17 | KFunction => 18 | KIf => 19 | KIn => 20 | KImplements => 21 | KInstanceOf => 22
   | KInterface => 23 | KLet => 24 | KNew => 25 | KPackage => 26 | KPrivate => 27
   | KProtected => 28 | KPublic => 29 | KStatic => 30 | KReturn => 31 | KSuper => 32
   | KSwitch => 33 | KThis => 34 | KThrow => 35 | KTry => 36 | KTypeOf => 37 | KVar => 38
   | KVoid => 39 | KWhile => 40 | KWith => 41 | KYield => 42
   end)%N.
Definition keyword_of_index (n : N) : keyword :=
  (match n with
   | 0 => KAwait | 1 => KBreak | 2 => KCase | 3 => KCatch | 4 => KClass | 5 => KConst
   | 6 => KContinue | 7 => KDebugger | 8 => KDefault | 9 => KImport | 10 => KDelete
   | 11 => KDo | 12 => KElse | 13 => KEnum | 14 => KExport | 15 => KExtends | 16 => KFinally
   | 17 => KFor | 18 => KFunction | 19 => KIf | 20 => KIn | 21 => KImplements | 22 => KInstanceOf
   | 23 => KInterface | 24 => KLet | 25 => KNew | 26 => KPackage | 27 => KPrivate
   | 28 => KProtected | 29 => KPublic | 30 => KStatic | 31 => KReturn | 32 => KSuper
   | 33 => KSwitch | 34 => KThis | 35 => KThrow | 36 => KTry | 37 => KTypeOf | 38 => KVar
   | 39 => KVoid | 40 => KWhile | 41 => KWith | _ => KYield
   end)%N.
Lemma keyword_of_index_index x : keyword_of_index (keyword_index x) = x.
Proof. destruct x; reflexivity. Qed.
Definition punct_index (x : punct) : N :=
  (match x with
   | PAnd => 0 | PAssign => 1 | PAsterisk => 2 | PBitwiseNot => 3 | PCaret => 4 | PCloseBrace => 5
   | PCloseBracket => 6 | PCloseParen => 7 | PColon => 8 | PComma => 9 | PForwardSlash => 10
   | PGreaterThan => 11 | PLessThan => 12 | PMinus => 13 | PModulo => 14 | PNot => 15
   | POpenBrace => 16 | POpenBracket => 17 | POpenParen => 18 | PPeriod => 19 | PPipe => 20
   | PPlus => 21 | PQuestionMark => 22 | PSemiColon => 23 | PSpread => 24 | PUnsignedRightShiftAssign => 25
   | PStrictEquals => 26 | PStrictNotEquals => 27 | PUnsignedRightShift => 28 | PLeftShiftAssign => 29
   | PRightShiftAssign => 30 | PExponentAssign => 31 | PLogicalAnd => 32 | PLogicalOr => 33
   | PEqual => 34 | PNotEqual => 35 | PAddAssign => 36 | PSubtractAssign => 37 | PMultiplyAssign => 38
   | PDivideAssign => 39 | PBitwiseAndAssign => 40 | PBitwiseOrAssign => 41 | PBitwiseXOrAssign => 42
   | PIncrement => 43 | PDecrement => 44 | PLeftShift => 45 | PRightShift => 46 | PGreaterThanEqual => 47
   | PLessThanEqual => 48 | PModuloAssign => 49 | PExponent => 50 | PFatArrow => 51
  
   end)%N.
Definition punct_of_index (n : N) : punct :=
  (match n with
   | 0 => PAnd | 1 => PAssign | 2 => PAsterisk | 3 => PBitwiseNot | 4 => PCaret | 5 => PCloseBrace
   | 6 => PCloseBracket | 7 => PCloseParen | 8 => PColon | 9 => PComma | 10 => PForwardSlash
   | 11 => PGreaterThan | 12 => PLessThan | 13 => PMinus | 14 => PModulo | 15 => PNot
   | 16 => POpenBrace | 17 => POpenBracket | 18 => POpenParen | 19 => PPeriod | 20 => PPipe
   | 21 => PPlus | 22 => PQuestionMark | 23 => PSemiColon | 24 => PSpread | 25 => PUnsignedRightShiftAssign
   | 26 => PStrictEquals | 27 => PStrictNotEquals | 28 => PUnsignedRightShift | 29 => PLeftShiftAssign
   | 30 => PRightShiftAssign | 31 => PExponentAssign | 32 => PLogicalAnd | 33 => PLogicalOr
   | 34 => PEqual | 35 => PNotEqual | 36 => PAddAssign | 37 => PSubtractAssign | 38 => PMultiplyAssign
   | 39 => PDivideAssign | 40 => PBitwiseAndAssign | 41 => PBitwiseOrAssign | 42 => PBitwiseXOrAssign
   | 43 => PIncrement | 44 => PDecrement | 45 => PLeftShift | 46 => PRightShift | 47 => PGreaterThanEqual
   | 48 => PLessThanEqual | 49 => PModuloAssign | 50 => PExponent | _ => PFatArrow
   end)%N.
Lemma punct_of_index_index x : punct_of_index (punct_index x) = x.
Proof. destruct x; reflexivity. Qed.

Definition keyword_eqb (a b : keyword) : bool := N.eqb (keyword_index a) (keyword_index b).
Definition punct_eqb (a b : punct) : bool := N.eqb (punct_index a) (punct_index b).

Lemma keyword_eqb_eq a b : keyword_eqb a b = true <-> a = b.
Proof.
  unfold keyword_eqb. rewrite N.eqb_eq. split; [|now intros ->].
  intros H. rewrite <- (keyword_of_index_index a), <- (keyword_of_index_index b). now rewrite H.
Qed.
Lemma punct_eqb_eq a b : punct_eqb a b = true <-> a = b.
Proof.
  unfold punct_eqb. rewrite N.eqb_eq. split; [|now intros ->].
  intros H. rewrite <- (punct_of_index_index a), <- (punct_of_index_index b). now rewrite H.
Qed.

Inductive template_kind := THead | TBody | TTail | TNoSub.
Inductive comment_kind := CSingle | CMulti | CHtml.

Inductive token :=
| TEoF | TIdent | TNull | TRegEx | TString | TNumeric
| TBoolean (b : bool)
| TKeyword (k : keyword)
| TPunct (p : punct)
| TTemplate (t : template_kind)
| TComment (c : comment_kind).

(** [RefItem]: a token and its byte [Span]. *)
Record item := mkItem { it_tok : token; it_start : nat; it_end : nat }.

(** The [RefToken] tests lib.rs uses; each is the variant test its name says. *)
Definition is_punct (p : punct) (t : token) : bool :=      (* matches_punct *)
  match t with TPunct q => punct_eqb p q | _ => false end.
Definition is_keyword (k : keyword) (t : token) : bool :=  (* matches_keyword *)
  match t with TKeyword q => keyword_eqb k q | _ => false end.
Definition is_any_punct (t : token) : bool := match t with TPunct _ => true | _ => false end.
Definition is_any_keyword (t : token) : bool := match t with TKeyword _ => true | _ => false end.
Definition is_ident (t : token) : bool := match t with TIdent => true | _ => false end.
Definition is_string (t : token) : bool := match t with TString => true | _ => false end.
Definition is_number (t : token) : bool := match t with TNumeric => true | _ => false end.
Definition is_bool (t : token) : bool := match t with TBoolean _ => true | _ => false end.
Definition is_null (t : token) : bool := match t with TNull => true | _ => false end.
Definition is_regex (t : token) : bool := match t with TRegEx => true | _ => false end.
Definition is_eof (t : token) : bool := match t with TEoF => true | _ => false end.
Definition is_template (t : token) : bool := match t with TTemplate _ => true | _ => false end.
Definition is_template_head (t : token) : bool :=
  match t with TTemplate THead | TTemplate TNoSub => true | _ => false end.
Definition is_comment (t : token) : bool := match t with TComment _ => true | _ => false end.

(** [Keyword::to_string] (used at lib.rs:2832). *)
Definition kw_text (k : keyword) : text :=
  str (match k with
       | KAwait => "await" | KBreak => "break" | KCase => "case" | KCatch => "catch"
       | KClass => "class" | KConst => "const" | KContinue => "continue"
       | KDebugger => "debugger" | KDefault => "default" | KImport => "import"
       | KDelete => "delete" | KDo => "do" | KElse => "else" | KEnum => "enum"
       | KExport => "export" | KExtends => "extends" | KFinally => "finally"
       | KFor => "for" | KFunction => "function" | KIf => "if" | KIn => "in"
       | KImplements => "implements" | KInstanceOf => "instanceof"
       | KInterface => "interface" | KLet => "let" | KNew => "new"
       | KPackage => "package" | KPrivate => "private" | KProtected => "protected"
       | KPublic => "public" | KStatic => "static" | KReturn => "return"
       | KSuper => "super" | KSwitch => "switch" | KThis => "this"
       | KThrow => "throw" | KTry => "try" | KTypeOf => "typeof" | KVar => "var"
       | KVoid => "void" | KWhile => "while" | KWith => "with" | KYield => "yield"
       end)%string.

(** [format!("{:?}", k)] / [format!("{:?}", p)]: the derived [Debug] names
    (used at lib.rs:4243, 4253). *)
Definition keyword_debug (k : keyword) : string :=
  (match k with
   | KAwait => "Await"
   | KBreak => "Break"
   | KCase => "Case"
   | KCatch => "Catch"
   | KClass => "Class"
   | KConst => "Const"
   | KContinue => "Continue"
   | KDebugger => "Debugger"
   | KDefault => "Default"
   | KImport => "Import"
   | KDelete => "Delete"
   | KDo => "Do"
   | KElse => "Else"
   | KEnum => "Enum"
   | KExport => "Export"
   | KExtends => "Extends"
   | KFinally => "Finally"
   | KFor => "For"
   | KFunction => "Function"
   | KIf => "If"
   | KIn => "In"
   | KImplements => "Implements"
   | KInstanceOf => "InstanceOf"
   | KInterface => "Interface"
   | KLet => "Let"
   | KNew => "New"
   | KPackage => "Package"
   | KPrivate => "Private"
   | KProtected => "Protected"
   | KPublic => "Public"
   | KStatic => "Static"
   | KReturn => "Return"
   | KSuper => "Super"
   | KSwitch => "Switch"
   | KThis => "This"
   | KThrow => "Throw"
   | KTry => "Try"
   | KTypeOf => "TypeOf"
   | KVar => "Var"
   | KVoid => "Void"
   | KWhile => "While"
   | KWith => "With"
   | KYield => "Yield"
   end)%string.

Definition punct_debug (p : punct) : string :=
  (match p with
   | PAnd => "And"
   | PAssign => "Assign"
   | PAsterisk => "Asterisk"
   | PBitwiseNot => "BitwiseNot"
   | PCaret => "Caret"
   | PCloseBrace => "CloseBrace"
   | PCloseBracket => "CloseBracket"
   | PCloseParen => "CloseParen"
   | PColon => "Colon"
   | PComma => "Comma"
   | PForwardSlash => "ForwardSlash"
   | PGreaterThan => "GreaterThan"
   | PLessThan => "LessThan"
   | PMinus => "Minus"
   | PModulo => "Modulo"
   | PNot => "Not"
   | POpenBrace => "OpenBrace"
   | POpenBracket => "OpenBracket"
   | POpenParen => "OpenParen"
   | PPeriod => "Period"
   | PPipe => "Pipe"
   | PPlus => "Plus"
   | PQuestionMark => "QuestionMark"
   | PSemiColon => "SemiColon"
   | PSpread => "Spread"
   | PUnsignedRightShiftAssign => "UnsignedRightShiftAssign"
   | PStrictEquals => "StrictEquals"
   | PStrictNotEquals => "StrictNotEquals"
   | PUnsignedRightShift => "UnsignedRightShift"
   | PLeftShiftAssign => "LeftShiftAssign"
   | PRightShiftAssign => "RightShiftAssign"
   | PExponentAssign => "ExponentAssign"
   | PLogicalAnd => "LogicalAnd"
   | PLogicalOr => "LogicalOr"
   | PEqual => "Equal"
   | PNotEqual => "NotEqual"
   | PAddAssign => "AddAssign"
   | PSubtractAssign => "SubtractAssign"
   | PMultiplyAssign => "MultiplyAssign"
   | PDivideAssign => "DivideAssign"
   | PBitwiseAndAssign => "BitwiseAndAssign"
   | PBitwiseOrAssign => "BitwiseOrAssign"
   | PBitwiseXOrAssign => "BitwiseXOrAssign"
   | PIncrement => "Increment"
   | PDecrement => "Decrement"
   | PLeftShift => "LeftShift"
   | PRightShift => "RightShift"
   | PGreaterThanEqual => "GreaterThanEqual"
   | PLessThanEqual => "LessThanEqual"
   | PModuloAssign => "ModuloAssign"
   | PExponent => "Exponent"
   | PFatArrow => "FatArrow"
   end)%string.

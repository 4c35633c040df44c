-Q theories Verif
theories/Text.v
theories/Token.v
theories/Ast.v
theories/Prog.v
theories/Parser.v
theories/Api.v
theories/Lexer.v
theories/Wp.v
theories/Meta.v
theories/Spec.v
theories/Runs.v
theories/Term.v
theories/Lines.v
theories/Scan.v
theories/Positions.v
theories/Safe.v
theories/Operators.v
theories/Properties1.v
theories/Properties2.v
theories/Properties3.v
theories/Properties4.v
theories/Tree.v
theories/Discipline.v
theories/Trees.v
theories/Bodies.v
theories/Handed.v
theories/Flags.v
theories/Properties5.v
theories/Grammar.v
theories/Derive.v
theories/Derived.v
theories/Sentence.v
theories/Properties6.v
theories/Found.v
theories/Properties7.v
theories/Async.v
theories/Subset.v
theories/Forward.v
theories/Heads.v
theories/Ladder.v
theories/Upper.v
theories/Primary.v
theories/Pats.v
theories/Funcs.v
theories/Classes.v
theories/Stmts.v
theories/Loops.v
theories/Modules.v
theories/Complete.v
theories/Whole.v
theories/Printer.v
theories/Printed.v
theories/Properties8.v
theories/Utf8.v
theories/Properties9.v
theories/Display.v
theories/Properties10.v
theories/Same.v
theories/Properties11.v
theories/Cost.v
theories/Properties12.v
theories/Options.v
theories/Told.v
theories/Properties13.v
theories/Rename.v
theories/Renamed.v
theories/Properties14.v
theories/Suffix.v
theories/Properties15.v
theories/Words.v
theories/Kept.v
theories/Properties16.v
theories/Properties17.v
theories/Inert.v
theories/Properties18.v
theories/Laxer.v
theories/Properties19.v
theories/Where.v
theories/Properties20.v
theories/Alone.v
theories/Properties21.v
theories/Parens.v
theories/Properties22.v
theories/Blocks.v
theories/Properties23.v
theories/Ended.v
theories/Properties24.v
theories/Enclosed.v
theories/Properties25.v
theories/Lists.v
theories/Properties26.v
theories/Chains.v
theories/Properties27.v
theories/Properties28.v
theories/Properties29.v
theories/Properties30.v
theories/Properties31.v
theories/Properties32.v
theories/Properties33.v
theories/RepoTests.v

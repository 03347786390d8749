-Q theories Verif
theories/Model/Base.v
theories/Model/Syntax.v
theories/Model/World.v
theories/Model/Lex.v
theories/Model/Prog.v
theories/Model/Parse.v
theories/Model/Meta.v
theories/Model/Eval.v
theories/Model/Builtins.v
theories/Model/CoreSrc.v
theories/Model/Main.v
theories/Proofs/Cap.v
theories/Proofs/Combi.v
theories/Proofs/Confine.v
theories/Proofs/Core.v
theories/Proofs/Decimal.v
theories/Proofs/Define.v
theories/Proofs/Dotimes.v
theories/Proofs/Encap.v
theories/Proofs/Ending.v
theories/Proofs/Forms.v
theories/Proofs/Guard.v
theories/Proofs/Heap.v
theories/Proofs/Hof.v
theories/Proofs/Lens.v
theories/Proofs/LexFacts.v
theories/Proofs/Lib.v
theories/Proofs/Loop.v
theories/Proofs/Macro.v
theories/Proofs/Macros.v
theories/Proofs/Natives.v
theories/Proofs/Never.v
theories/Proofs/Open.v
theories/Proofs/Ops.v
theories/Proofs/ParseFacts.v
theories/Proofs/Plan.v
theories/Proofs/Programs.v
theories/Proofs/Range.v
theories/Proofs/Reach.v
theories/Proofs/Rename.v
theories/Proofs/Rules.v
theories/Proofs/Run.v
theories/Proofs/Same.v
theories/Proofs/Scope.v
theories/Proofs/Simul.v
theories/Proofs/Stack.v
theories/Proofs/Step.v
theories/Proofs/Symb.v
theories/Proofs/User.v
theories/Proofs/While.v
theories/Proofs/Wp.v
theories/Props/Assert.v
theories/Props/Binding.v
theories/Props/Calls.v
theories/Props/Capability.v
theories/Props/Characters.v
theories/Props/Choice.v
theories/Props/Combinators.v
theories/Props/Compiled.v
theories/Props/Complaints.v
theories/Props/Compose.v
theories/Props/Control.v
theories/Props/Crash.v
theories/Props/Cxr.v
theories/Props/Define.v
theories/Props/Docs.v
theories/Props/Effects.v
theories/Props/Ending.v
theories/Props/Errors.v
theories/Props/Everywhere.v
theories/Props/Examples.v
theories/Props/Faults.v
theories/Props/History.v
theories/Props/LetCall.v
theories/Props/Lexical.v
theories/Props/LibCalls.v
theories/Props/LibPure.v
theories/Props/Lists.v
theories/Props/Loops.v
theories/Props/Manual.v
theories/Props/Mapping.v
theories/Props/Misc.v
theories/Props/Misuse.v
theories/Props/Numbers.v
theories/Props/Printing.v
theories/Props/Programs.v
theories/Props/Random.v
theories/Props/Reader.v
theories/Props/Reload.v
theories/Props/Scoping.v
theories/Props/Screen.v
theories/Props/Session.v
theories/Props/Small.v
theories/Props/SortBy.v
theories/Props/Source.v
theories/Props/Stack.v
theories/Props/Startup.v
theories/Props/State.v
theories/Props/Tail.v
theories/Props/Template.v
theories/Props/Text.v
theories/Props/Typing.v
theories/Props/Words.v
theories/Spec/Assert.v
theories/Spec/Binding.v
theories/Spec/Calling.v
theories/Spec/Capability.v
theories/Spec/Characters.v
theories/Spec/Choosing.v
theories/Spec/Complaints.v
theories/Spec/Compose.v
theories/Spec/Defining.v
theories/Spec/Effects.v
theories/Spec/Ending.v
theories/Spec/Everywhere.v
theories/Spec/Faults.v
theories/Spec/Forms.v
theories/Spec/History.v
theories/Spec/LetCall.v
theories/Spec/Lexical.v
theories/Spec/Library.v
theories/Spec/Mapping.v
theories/Spec/Misuse.v
theories/Spec/Printing.v
theories/Spec/Programs.v
theories/Spec/Random.v
theories/Spec/Reader.v
theories/Spec/Repeating.v
theories/Spec/Screen.v
theories/Spec/Session.v
theories/Spec/Stack.v
theories/Spec/Template.v
theories/Spec/Terminal.v
theories/Spec/Typing.v
theories/Spec/Vocabulary.v
theories/Model/Compiled.v
theories/Model/Conformance.v

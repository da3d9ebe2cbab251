-Q theories Verif
theories/Shunt/Model.v
theories/Shunt/Spec.v
theories/Shunt/Proofs.v
theories/Shunt/Proofs2.v
theories/Shunt/Proofs3.v
theories/Shunt/Props.v
theories/Words/Model.v
theories/Words/Proofs.v
theories/Words/Props.v
theories/Basics/Model.v
theories/Basics/Spec.v
theories/Basics/Proofs.v
theories/Basics/Props.v
theories/Vecs/Model.v
theories/Vecs/Proofs.v
theories/Vecs/Props.v
theories/Sets/Model.v
theories/Sets/Spec.v
theories/Sets/Proofs.v
theories/Sets/Props.v
theories/NdArray/Model.v
theories/NdArray/Spec.v
theories/NdArray/Proofs.v
theories/NdArray/Props.v
theories/Graph/Model.v
theories/Graph/Spec.v
theories/Graph/Proofs.v
theories/Graph/Proofs2.v
theories/Graph/Proofs3.v
theories/Graph/Props.v
theories/Arrays/Model.v
theories/Arrays/Spec.v
theories/Arrays/Proofs.v
theories/Arrays/Props.v
theories/Scope/Model.v
theories/Scope/Spec.v
theories/Scope/Proofs.v
theories/Scope/Props.v
theories/Heap/Lines.v
theories/Heap/LinesSpec.v
theories/Heap/LinesProofs.v
theories/Heap/Model.v
theories/Heap/Spec.v
theories/Heap/HeapProofs.v
theories/Heap/AllocProofs.v
theories/Heap/TraceProofs.v
theories/Heap/EvacProofs.v
theories/Heap/CollectProofs.v
theories/Heap/SimProofs.v
theories/Heap/Props.v
theories/Heap/SpaceProps.v
theories/Simplify/Compress.v
theories/Simplify/CompressSpec.v
theories/Simplify/CompressProofs.v
theories/Simplify/CompressProps.v
theories/Simplify/Prune.v
theories/Simplify/PruneSpec.v
theories/Simplify/PruneProofs.v
theories/Simplify/PruneProofs2.v
theories/Simplify/PruneProofs3.v
theories/Simplify/PruneProofs4.v
theories/Simplify/PruneProps.v
theories/Letrec/Tarjan.v
theories/Letrec/TarjanSpec.v
theories/Letrec/TarjanProofs.v
theories/Letrec/Model.v
theories/Letrec/Spec.v
theories/Letrec/Proofs.v
theories/Letrec/FlattenProofs.v
theories/Letrec/SplitProofs.v
theories/Letrec/Props.v
theories/Fuse/Model.v
theories/Fuse/Spec.v
theories/Fuse/Proofs.v
theories/Fuse/Props.v
theories/Inline/Model.v
theories/Inline/Spec.v
theories/Inline/Proofs.v
theories/Inline/Proofs2.v
theories/Inline/Props.v
theories/Cook/Model.v
theories/Cook/Spec.v
theories/Cook/PatternProofs.v
theories/Cook/CookProofs.v
theories/Cook/BlockProofs.v
theories/Cook/Props.v
theories/Bytecode/Model.v
theories/Bytecode/Spec.v
theories/Bytecode/Proofs.v
theories/Bytecode/EncProofs.v
theories/Bytecode/ProgProofs.v
theories/Bytecode/WholeProofs.v
theories/Bytecode/SizeProofs.v
theories/Bytecode/Props.v
theories/Predecode/Model.v
theories/Predecode/Spec.v
theories/Predecode/InvProofs.v
theories/Predecode/NodeProofs.v
theories/Predecode/RunProofs.v
theories/Predecode/LocProofs.v
theories/Predecode/AgreeProofs.v
theories/Predecode/TotalProofs.v
theories/Predecode/ByteProofs.v
theories/Predecode/WholeProofs.v
theories/Predecode/Props.v
theories/Types/Model.v
theories/Types/Spec.v
theories/Types/Basics.v
theories/Types/RuleProofs.v
theories/Types/SimProofs.v
theories/Types/TermProofs.v
theories/Types/TransProofs.v
theories/Types/SoundProofs.v
theories/Types/UnionProofs.v
theories/Types/Props.v
theories/Types/UnifySpec.v
theories/Types/ResProofs.v
theories/Types/ApplyProofs.v
theories/Types/UnifyProofs.v
theories/Types/HeadProofs.v
theories/Types/UnifyProps.v
theories/Machine/Model.v
theories/Machine/Spec.v
theories/Machine/Name.v
theories/Machine/Rel.v
theories/Machine/Chase.v
theories/Machine/Sim.v
theories/Machine/Steps.v
theories/Machine/Clean.v
theories/Machine/Correct.v
theories/Machine/Curry.v
theories/Machine/Check.v
theories/Machine/Props.v
theories/Machine/LookupSpec.v
theories/Machine/Lookup.v
theories/Machine/Literal.v
theories/Numbers/Model.v
theories/Numbers/Spec.v
theories/Numbers/Round.v
theories/Numbers/Floats.v
theories/Numbers/Nearest.v
theories/Numbers/Closed.v
theories/Numbers/Quotient.v
theories/Numbers/Proofs.v
theories/Numbers/Lists.v
theories/Numbers/Props.v
theories/Stg/Model.v
theories/Stg/Spec.v
theories/Stg/Rules.v
theories/Stg/Proofs.v
theories/Stg/Data.v
theories/Stg/WrapSpec.v
theories/Stg/Wrap.v
theories/Stg/Finite.v
theories/Stg/Props.v
theories/Stg/Examples.v
theories/Blocks/Model.v
theories/Blocks/Spec.v
theories/Blocks/Proofs.v
theories/Blocks/Equal.v
theories/Blocks/Props.v
theories/Prelude/Model.v
theories/Prelude/Spec.v
theories/Prelude/Proofs.v
theories/Prelude/More.v
theories/Prelude/Groups.v
theories/Prelude/Props.v
theories/Updates/Model.v
theories/Updates/Spec.v
theories/Updates/Proofs.v
theories/Updates/Props.v
theories/Updates/Query.v
theories/Updates/QSpec.v
theories/Updates/QProofs.v
theories/Updates/QProps.v
theories/Text/Model.v
theories/Text/Spec.v
theories/Text/Escapes.v
theories/Text/Shell.v
theories/Text/Lexing.v
theories/Text/Numbers.v
theories/Text/Templates.v
theories/Text/Props.v
theories/Lexer/Model.v
theories/Lexer/Spec.v
theories/Lexer/Steps.v
theories/Lexer/Runs.v
theories/Lexer/Again.v
theories/Lexer/Formats.v
theories/Lexer/Props.v
theories/Parser/Model.v
theories/Parser/Spec.v
theories/Parser/Halts.v
theories/Parser/Forests.v
theories/Parser/Sinks.v
theories/Parser/Parses.v
theories/Parser/Blocks.v
theories/Parser/Builds.v
theories/Parser/Lexed.v
theories/Parser/Grammar.v
theories/Parser/Contents.v
theories/Parser/Balance.v
theories/Parser/Grammatical.v
theories/Parser/Trees.v
theories/Parser/Props.v
theories/Parser/GrammarProps.v
theories/Validate/Model.v
theories/Validate/Spec.v
theories/Validate/Sound.v
theories/Validate/Accepts.v
theories/Validate/Props.v
theories/Optimise/Model.v
theories/Optimise/Spec.v
theories/Optimise/Relate.v
theories/Optimise/Forward.v
theories/Optimise/Backward.v
theories/Optimise/Applies.v
theories/Optimise/Scopes.v
theories/Optimise/Props.v
theories/Compile/Model.v
theories/Compile/Spec.v
theories/Compile/Relate.v
theories/Compile/Reads.v
theories/Compile/Means.v
theories/Compile/Sound.v
theories/Compile/Props.v
theories/Demand/Model.v
theories/Demand/Spec.v
theories/Demand/Facts.v
theories/Demand/Exact.v
theories/Demand/Main.v
theories/Demand/Many.v
theories/Demand/Props.v
theories/Parallel/Model.v
theories/Parallel/Spec.v
theories/Parallel/Codec.v
theories/Parallel/Encode.v
theories/Parallel/Total.v
theories/Parallel/Arena.v
theories/Parallel/Props.v
theories/Imports/Model.v
theories/Imports/Spec.v
theories/Imports/Specifier.v
theories/Imports/Scoping.v
theories/Imports/Loading.v
theories/Imports/Props.v
theories/Export/Model.v
theories/Export/Spec.v
theories/Export/Maps.v
theories/Export/Writing.v
theories/Export/Whole.v
theories/Export/Props.v
theories/Printf/Model.v
theories/Printf/Spec.v
theories/Printf/Proofs.v
theories/Printf/Props.v
theories/Testing/Model.v
theories/Testing/Spec.v
theories/Testing/Proofs.v
theories/Testing/Props.v
theories/Yaml/Model.v
theories/Yaml/Spec.v
theories/Yaml/Structure.v
theories/Yaml/Scalars.v
theories/Yaml/Inert.v
theories/Yaml/Props.v
theories/Io/Model.v
theories/Io/Spec.v
theories/Io/Proofs.v
theories/Io/Fields.v
theories/Io/Props.v
theories/Lsp/Model.v
theories/Lsp/Spec.v
theories/Lsp/Places.v
theories/Lsp/Tokens.v
theories/Lsp/Props.v
theories/Lookup/Model.v
theories/Lookup/Spec.v
theories/Lookup/Proofs.v
theories/Lookup/Props.v
theories/Xml/Model.v
theories/Xml/Spec.v
theories/Xml/Props.v
theories/Streams/Model.v
theories/Streams/Spec.v
theories/Streams/Props.v
theories/Outline/Model.v
theories/Outline/Spec.v
theories/Outline/Props.v
theories/Reformat/Model.v
theories/Reformat/Spec.v
theories/Reformat/Props.v
theories/Brackets/Model.v
theories/Brackets/Spec.v
theories/Brackets/Props.v

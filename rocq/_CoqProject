-Q theories Verif
theories/Base.v
theories/InputModel.v
theories/LexerModel.v
theories/LexerSpec.v
theories/GraphProof.v
theories/AlphabetProof.v
theories/NfaProof.v
theories/NfaLang.v
theories/PowersetProof.v
theories/ConvertProof.v
theories/PrecedenceProof.v
theories/LexerProof.v
theories/LexerRunProof.v
theories/LexerFactsProof.v
theories/LexerExample.v
theories/LexerProperties.v
theories/GrammarModel.v
theories/GrammarSpec.v
theories/GrammarNamesProof.v
theories/GrammarProof.v
theories/GrammarBuildProof.v
theories/GrammarFactsProof.v
theories/GrammarProperties.v
theories/LLModel.v
theories/LLSpec.v
theories/SententialProof.v
theories/SetsProof.v
theories/FirstProof.v
theories/FollowProof.v
theories/LLTableProof.v
theories/LLParseProof.v
theories/LLFactsProof.v
theories/LLExample.v
theories/LLProperties.v
theories/LRModel.v
theories/LRSpec.v
theories/BidiProof.v
theories/ItemProof.v
theories/LRItemsProof.v
theories/LRGraphProof.v
theories/AutomatonProof.v
theories/LRTableProof.v
theories/LRWriteProof.v
theories/LRGenProof.v
theories/LRConflictProof.v
theories/LRRunProof.v
theories/LRCompleteProof.v
theories/LRFactsProof.v
theories/ShapesProof.v
theories/LRExample.v
theories/LRProperties.v
theories/GLRModel.v
theories/GLRSpec.v
theories/GLRWriteProof.v
theories/GLRStepProof.v
theories/GLRSimProof.v
theories/GLRProof.v
theories/GLRFactsProof.v
theories/GLRExample.v
theories/GLRProperties.v
theories/PositionModel.v
theories/PositionSpec.v
theories/PositionProof.v
theories/PositionProperties.v
theories/CppLexerModel.v
theories/CppLexerSpec.v
theories/CppLexerProof.v
theories/CppLexerProperties.v
theories/NamesModel.v
theories/NamesSpec.v
theories/NamesProof.v
theories/NamesVisitProof.v
theories/NamesExample.v
theories/NamesProperties.v
theories/TemplateModel.v
theories/TemplateFiles.v
theories/TemplateSpec.v
theories/TemplateProof.v
theories/TemplateProperties.v
theories/CppLRModel.v
theories/CppLRSpec.v
theories/CppLRProof.v
theories/CppLRExample.v
theories/CppLRProperties.v
theories/BootModel.v
theories/BootSpec.v
theories/BootSoundProof.v
theories/BootCompleteProof.v
theories/BootFactsProof.v
theories/BootExample.v
theories/BootProperties.v
theories/InputGenModel.v
theories/InputGenSpec.v
theories/InputGenLapex.v
theories/InputGenProof.v
theories/InputGenMeaningProof.v
theories/InputGenHirProof.v
theories/InputGenFactsProof.v
theories/LRTermSpec.v
theories/LRTermProof.v
theories/LRTermFactsProof.v
theories/LRTermExample.v
theories/LRTermProperties.v
theories/LRErrorSpec.v
theories/LRErrorProof.v
theories/LRErrorFactsProof.v
theories/LRErrorExample.v
theories/LRErrorProperties.v
theories/InputGenEndProof.v
theories/InputGenExample.v
theories/InputGenProperties.v
theories/InputTextSpec.v
theories/InputTextLexProof.v
theories/InputTextDivideProof.v
theories/InputTextFileProof.v
theories/InputTextLayoutProof.v
theories/InputTextWriteProof.v
theories/InputTextFactsProof.v
theories/InputTextExample.v
theories/InputTextProperties.v
theories/RunModel.v
theories/RunSpec.v
theories/RunProof.v
theories/RunExample.v
theories/RunProperties.v
theories/TableModel.v
theories/PipelineModel.v
theories/PipelineSpec.v
theories/PipelineProof.v
theories/PipelineReportProof.v
theories/PipelineFactsProof.v
theories/PipelineTermProof.v
theories/PipelineEndProof.v
theories/PipelineExample.v
theories/PipelineProperties.v
theories/TableSpec.v
theories/TableProof.v
theories/TableProperties.v
theories/CanonSpec.v
theories/CanonProof.v
theories/CanonFactsProof.v
theories/HierarchySpec.v
theories/HierarchyProof.v
theories/HierarchyFactsProof.v
theories/HierarchyExample.v
theories/CanonProperties.v
theories/HierarchyProperties.v
theories/CppRunModel.v
theories/CppRunSpec.v
theories/CppRunProof.v
theories/CppEndProof.v
theories/CppRunExample.v
theories/CppRunProperties.v
theories/LRHashModel.v
theories/LRHashSpec.v
theories/LRHashSetProof.v
theories/LRHashGraphProof.v
theories/LRHashProof.v
theories/LRHashExample.v
theories/LRHashProperties.v
theories/AgreeSpec.v
theories/AgreeProof.v
theories/AgreeExample.v
theories/AgreeProperties.v
theories/BothSpec.v
theories/BothProof.v
theories/BothExample.v
theories/BothProperties.v
theories/CppTextSpec.v
theories/CppTextModel.v
theories/CppTextProof.v
theories/CppBitsSpec.v
theories/CppLexTextSpec.v
theories/CppLexTextProof.v
theories/CppBitsProof.v
theories/CppLexRunProof.v
theories/CppTokTextProof.v
theories/LexDetProof.v
theories/CppLexGenProof.v
theories/CppLexTextExample.v
theories/CppLexTextProperties.v
theories/CppClassSpec.v
theories/CppClassProof.v
theories/CppDecodeProperties.v
theories/CppPullModel.v
theories/CppLRTextSpec.v
theories/CppLRTextModel.v
theories/CppCaseProof.v
theories/CppLRTextProof.v
theories/CppLRCheckProof.v
theories/CppLRExecProof.v
theories/CppParseExecProof.v
theories/CppLRGenTextProof.v
theories/CppEndTextProof.v
theories/CppLRTextExample.v
theories/CppLRTextProperties.v
theories/CppVisitorModel.v
theories/CppVisitorSpec.v
theories/CppVisitorProof.v
theories/CppVisitorProperties.v
theories/RustTokenSpec.v
theories/RustQuoteModel.v
theories/RustLexTextModel.v
theories/RustSpec.v
theories/RustLexTextSpec.v
theories/RustLexTextProof.v
theories/RustLexRunProof.v
theories/RustLexGenProof.v
theories/RustLexTextExample.v
theories/RustLexTextProperties.v
theories/RustLRTextModel.v
theories/RustPullModel.v
theories/RustLRTextSpec.v
theories/RustLRTextProof.v
theories/RustLRParseProof.v
theories/RustLRRunProof.v
theories/RustLREndSpec.v
theories/RustLRGenProof.v
theories/RustLRTextExample.v
theories/RustLRTextProperties.v
theories/RustMessageSpec.v
theories/RustMessageProof.v
theories/RustMessageExample.v
theories/RustMessageProperties.v
theories/ReportModel.v
theories/ReportSpec.v
theories/ReportProof.v
theories/ReportFileProof.v
theories/ReportExample.v
theories/ReportProperties.v
theories/GrammarTextModel.v
theories/GrammarTextSpec.v
theories/GrammarTextProof.v
theories/GrammarTextLayoutProof.v
theories/GrammarTextFileProof.v
theories/GrammarTextExample.v
theories/GrammarTextFileExample.v
theories/GrammarTextProperties.v

-Q theories Verif
theories/Buffers.v
theories/Chars.v
theories/Compare.v
theories/Costs.v
theories/Counters.v
theories/Docs.v
theories/Extras.v
theories/Fixity.v
theories/Grapheme.v
theories/Hashed.v
theories/HashedLexicon.v
theories/Interner.v
theories/Into.v
theories/Lexer.v
theories/Messages.v
theories/Parser.v
theories/Prelim.v
theories/Printer.v
theories/ProofBytes.v
theories/ProofCompose.v
theories/ProofDigits.v
theories/ProofExchange.v
theories/ProofFixity.v
theories/ProofGrapheme.v
theories/ProofHashed.v
theories/ProofHashedLexicon.v
theories/ProofHaskell.v
theories/ProofInterner.v
theories/ProofInto.v
theories/ProofLexer.v
theories/ProofLexer2.v
theories/ProofLexer3.v
theories/ProofLexer4.v
theories/ProofLexer5.v
theories/ProofLexer6.v
theories/ProofLexer7.v
theories/ProofLexer8.v
theories/ProofLexer9.v
theories/ProofOutput.v
theories/ProofOutput2.v
theories/ProofOutput3.v
theories/ProofParser.v
theories/ProofParser10.v
theories/ProofParser11.v
theories/ProofParser12.v
theories/ProofParser13.v
theories/ProofParser14.v
theories/ProofParser15.v
theories/ProofParser16.v
theories/ProofParser2.v
theories/ProofParser3.v
theories/ProofParser4.v
theories/ProofParser5.v
theories/ProofParser6.v
theories/ProofParser7.v
theories/ProofParser8.v
theories/ProofParser9.v
theories/ProofPrinter.v
theories/ProofPrinter2.v
theories/ProofPrinter3.v
theories/ProofPrinter4.v
theories/ProofPrinter5.v
theories/ProofPrinter6.v
theories/ProofPrinter7.v
theories/ProofPrinter8.v
theories/ProofPrinter9.v
theories/ProofReadme.v
theories/ProofReadme2.v
theories/ProofReadme3.v
theories/ProofReadme4.v
theories/ProofRepl.v
theories/ProofRepl2.v
theories/ProofRepl3.v
theories/ProofRepl4.v
theories/ProofRepl5.v
theories/ProofRepl6.v
theories/ProofRepl7.v
theories/ProofRepl8.v
theories/ProofRepl9.v
theories/ProofResolve.v
theories/ProofResolve2.v
theories/ProofRespell.v
theories/ProofRewrite.v
theories/ProofSetup.v
theories/ProofShape.v
theories/ProofShape2.v
theories/ProofSimilar.v
theories/ProofStyle.v
theories/ProofTable.v
theories/ProofThreads.v
theories/ProofTyped.v
theories/ProofTyped2.v
theories/PropsAgain.v
theories/PropsAlike.v
theories/PropsAnswer.v
theories/PropsAst.v
theories/PropsBuffers.v
theories/PropsChars.v
theories/PropsCompare.v
theories/PropsCompose.v
theories/PropsCosts.v
theories/PropsCounters.v
theories/PropsCrash.v
theories/PropsDocs.v
theories/PropsExchange.v
theories/PropsExtras.v
theories/PropsFixity.v
theories/PropsGrapheme.v
theories/PropsHashed.v
theories/PropsHashedLexicon.v
theories/PropsHelp.v
theories/PropsInterner.v
theories/PropsInto.v
theories/PropsLayers.v
theories/PropsLets.v
theories/PropsLevels.v
theories/PropsLexer.v
theories/PropsMatch.v
theories/PropsMirror.v
theories/PropsOrder.v
theories/PropsOutcome.v
theories/PropsOutput.v
theories/PropsParens.v
theories/PropsParser.v
theories/PropsPatterns.v
theories/PropsPieces.v
theories/PropsPrinter.v
theories/PropsReadme.v
theories/PropsRejected.v
theories/PropsRename.v
theories/PropsRepl.v
theories/PropsRespell.v
theories/PropsRest.v
theories/PropsSaid.v
theories/PropsSaved.v
theories/PropsSetup.v
theories/PropsShape.v
theories/PropsSimilar.v
theories/PropsSize.v
theories/PropsStandIn.v
theories/PropsStrip.v
theories/PropsStyle.v
theories/PropsThreads.v
theories/PropsTold.v
theories/PropsTyped.v
theories/PropsUnused.v
theories/Repl.v
theories/Setup.v
theories/SpecAlike.v
theories/SpecAst.v
theories/SpecChars.v
theories/SpecCompose.v
theories/SpecCrash.v
theories/SpecDocs.v
theories/SpecExchange.v
theories/SpecExtras.v
theories/SpecFixity.v
theories/SpecGrapheme.v
theories/SpecHelp.v
theories/SpecInterner.v
theories/SpecInto.v
theories/SpecLayers.v
theories/SpecLets.v
theories/SpecLevels.v
theories/SpecLexRun.v
theories/SpecLexer.v
theories/SpecMatch.v
theories/SpecMirror.v
theories/SpecOutcome.v
theories/SpecOutput.v
theories/SpecParens.v
theories/SpecParser.v
theories/SpecPrinter.v
theories/SpecReadme.v
theories/SpecRejected.v
theories/SpecRename.v
theories/SpecRepl.v
theories/SpecRespell.v
theories/SpecSaid.v
theories/SpecSetup.v
theories/SpecShape.v
theories/SpecSimilar.v
theories/SpecStyle.v
theories/SpecThreads.v
theories/SpecTyped.v
theories/SpecViable.v
theories/Style.v
theories/Syntax.v
theories/Threads.v
theories/UnitTests.v

-Q theories Verif
theories/Str.v
theories/Regex.v
theories/Types.v
theories/Ast.v
theories/State.v
theories/Nom.v
theories/Keys.v
theories/Grammar.v
theories/Api.v
theories/Cli.v
theories/Tests.v
theories/Facts.v
theories/Spec.v
theories/TypesFacts.v
theories/RegexFacts.v
theories/NomFacts.v
theories/DateFacts.v
theories/CtorFacts.v
theories/NumFacts.v
theories/PropTypes.v
theories/StringFacts.v
theories/ScalarFacts.v
theories/LineFacts.v
theories/FlatFacts.v
theories/PropFlat.v
theories/RoundTrip.v
theories/Effects.v
theories/ParseFacts.v
theories/PropParse.v
theories/WalkFacts.v
theories/DocFacts.v
theories/PropDoc.v
theories/IdFacts.v
theories/WriteFacts.v
theories/SetFacts.v
theories/ApiSpec.v
theories/ApiFacts.v
theories/UpdateFacts.v
theories/PropApi.v
theories/DocSpec.v
theories/PathFacts.v
theories/NestFacts.v
theories/SectFacts.v
theories/LookFacts.v
theories/RereadFacts.v
theories/PropNest.v
theories/PropDocs.v
theories/HeadSpec.v
theories/SafeFacts.v
theories/TotalFacts.v
theories/CountFacts.v
theories/PropSafe.v
theories/DotSpec.v
theories/DotFacts.v
theories/PropDot.v
theories/FaultSpec.v
theories/FaultFacts.v
theories/PropFault.v
theories/CliSpec.v
theories/CliFacts.v
theories/PropCli.v
theories/TreeSpec.v
theories/TreeView.v
theories/TreeStack.v
theories/TreeActs.v
theories/TreeFacts.v
theories/PropTree.v
theories/Equal.v
theories/EqualSpec.v
theories/EqualFacts.v
theories/PropEqual.v
theories/Main.v
theories/MainSpec.v
theories/MainFacts.v
theories/PropMain.v
theories/GramSpec.v
theories/GramFacts.v
theories/PropGram.v
theories/MixSpec.v
theories/MixFacts.v
theories/PropMix.v
theories/SessSpec.v
theories/LayFacts.v
theories/SessFacts.v
theories/SessDocs.v
theories/PropSess.v
theories/RunSpec.v
theories/RunFacts.v
theories/PropRuns.v
theories/PartSpec.v
theories/PartFacts.v
theories/PropCtor.v
theories/ShowSpec.v
theories/ShowFacts.v
theories/PropShow.v
theories/FoundSpec.v
theories/FoundFacts.v
theories/PropFound.v
theories/CalmSpec.v
theories/CalmWalk.v
theories/CalmFacts.v
theories/ClashSpec.v
theories/ClashFacts.v
theories/PropClash.v
theories/AfterSpec.v
theories/AfterFacts.v
theories/PropAfter.v
theories/OvfSpec.v
theories/OvfFacts.v
theories/PropOvf.v
theories/BlindFacts.v
theories/PropBlind.v
theories/NumSpec.v
theories/NumWide.v
theories/PropNum.v
theories/ApartSpec.v
theories/ApartFacts.v
theories/PropApart.v
theories/ReportFacts.v
theories/PropReport.v
theories/WrittenFacts.v
theories/WrittenSpec.v
theories/EditFacts.v
theories/PropWritten.v
theories/OutcomeSpec.v
theories/OutcomeFacts.v
theories/PropOutcome.v
theories/WholeSpec.v
theories/WholeFacts.v
theories/PropWhole.v
theories/StaySpec.v
theories/StayFacts.v
theories/PropStay.v
theories/TwinSpec.v
theories/TwinFacts.v
theories/PropTwin.v
theories/KinSpec.v
theories/KinFacts.v
theories/PropKin.v
theories/AgainSpec.v
theories/AgainFacts.v
theories/PropAgain.v
theories/NextSpec.v
theories/NextFacts.v
theories/PropNext.v
theories/Args.v
theories/ArgsSpec.v
theories/ArgsFacts.v
theories/PropArgs.v
theories/OrderSpec.v
theories/OrderFacts.v
theories/PropOrder.v
theories/SibSpec.v
theories/SibFacts.v
theories/PropSib.v
theories/CauseSpec.v
theories/CauseFacts.v
theories/PropCause.v
theories/PropOnce.v
theories/RankSpec.v
theories/RankFacts.v
theories/PropRank.v
theories/ReachSpec.v
theories/ReachFacts.v
theories/PropReach.v
theories/ExactFacts.v
theories/PropExact.v
theories/KidsSpec.v
theories/KidsFacts.v
theories/PropKids.v
theories/TabSetFacts.v
theories/PropTabSet.v
theories/OwnFacts.v
theories/FrameFacts.v
theories/PropFrame.v
theories/AboveSpec.v
theories/AboveFacts.v
theories/LinkFacts.v
theories/PropAbove.v
theories/ResizeFacts.v
theories/PropResize.v

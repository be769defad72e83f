-Q theories Verif
theories/Fed/Check.v
theories/Fed/Dbm.v
theories/Fed/DbmFacts.v
theories/Fed/Zone.v
theories/Fed/ZoneFacts.v
theories/Model/Base.v
theories/Model/Cli.v
theories/Model/Component.v
theories/Model/Crash.v
theories/Model/Enable.v
theories/Model/Exec.v
theories/Model/Expr.v
theories/Model/Extrapolate.v
theories/Model/Failure.v
theories/Model/Files.v
theories/Model/Guard.v
theories/Model/Handle.v
theories/Model/Layout.v
theories/Model/Leaves.v
theories/Model/Loader.v
theories/Model/Loc.v
theories/Model/PairList.v
theories/Model/ParseEdge.v
theories/Model/ParseQuery.v
theories/Model/Peg.v
theories/Model/Print.v
theories/Model/Prune.v
theories/Model/Query.v
theories/Model/Recipe.v
theories/Model/Reduce.v
theories/Model/Refine.v
theories/Model/Save.v
theories/Model/Search.v
theories/Model/Server.v
theories/Model/Sim.v
theories/Model/TS.v
theories/Model/Wire.v
theories/Model/Xml.v
theories/Proofs/AcrossFacts.v
theories/Proofs/AgainFacts.v
theories/Proofs/AgainReach.v
theories/Proofs/BisimFacts.v
theories/Proofs/BoundFacts.v
theories/Proofs/ClockFacts.v
theories/Proofs/ClockMapFacts.v
theories/Proofs/CompileFacts.v
theories/Proofs/CompressFacts.v
theories/Proofs/ConsFacts.v
theories/Proofs/ConsistentFacts.v
theories/Proofs/ConvFacts.v
theories/Proofs/DeclFacts.v
theories/Proofs/DetComp.v
theories/Proofs/DetFacts.v
theories/Proofs/DetFail.v
theories/Proofs/EnableFacts.v
theories/Proofs/EndFacts.v
theories/Proofs/EndPairs.v
theories/Proofs/EndPlain.v
theories/Proofs/EndQuery.v
theories/Proofs/EnteredFacts.v
theories/Proofs/ExecFacts.v
theories/Proofs/ExtraFacts.v
theories/Proofs/FailureFacts.v
theories/Proofs/FailureModel.v
theories/Proofs/FailurePairs.v
theories/Proofs/FailureTruth.v
theories/Proofs/FewFacts.v
theories/Proofs/FileFacts.v
theories/Proofs/GuardFacts.v
theories/Proofs/HandleFacts.v
theories/Proofs/IdFacts.v
theories/Proofs/InstrFacts.v
theories/Proofs/LawFacts.v
theories/Proofs/LawMore.v
theories/Proofs/LawProofs.v
theories/Proofs/LawQuot.v
theories/Proofs/LawSym.v
theories/Proofs/LayoutFacts.v
theories/Proofs/LeavesFacts.v
theories/Proofs/LinkFacts.v
theories/Proofs/LoadFacts.v
theories/Proofs/LoaderFacts.v
theories/Proofs/NearFacts.v
theories/Proofs/NumFacts.v
theories/Proofs/OpFacts.v
theories/Proofs/OrderFacts.v
theories/Proofs/PairListFacts.v
theories/Proofs/ParseFacts.v
theories/Proofs/PathFacts.v
theories/Proofs/PegFacts.v
theories/Proofs/PlaceFacts.v
theories/Proofs/PlainFacts.v
theories/Proofs/PrintFacts.v
theories/Proofs/PruneFacts.v
theories/Proofs/QueryFacts.v
theories/Proofs/QuotientFacts.v
theories/Proofs/ReachBounds.v
theories/Proofs/ReachFacts.v
theories/Proofs/ReadsFacts.v
theories/Proofs/RecipeFacts.v
theories/Proofs/ReduceFacts.v
theories/Proofs/RefineFacts.v
theories/Proofs/RefineFail.v
theories/Proofs/RenFacts.v
theories/Proofs/RunFacts.v
theories/Proofs/SameFacts.v
theories/Proofs/SaveFacts.v
theories/Proofs/SavedFacts.v
theories/Proofs/ServerFacts.v
theories/Proofs/ShrinkFacts.v
theories/Proofs/SimFacts.v
theories/Proofs/SimplifyFacts.v
theories/Proofs/StandFacts.v
theories/Proofs/StateFacts.v
theories/Proofs/StepFacts.v
theories/Proofs/StoreFacts.v
theories/Proofs/SubstFacts.v
theories/Proofs/SubstMore.v
theories/Proofs/SystemFacts.v
theories/Proofs/TargetFacts.v
theories/Proofs/TwoFacts.v
theories/Proofs/WfFacts.v
theories/Proofs/WireFacts.v
theories/Proofs/WireStep.v
theories/Proofs/XmlFacts.v
theories/Props/Admitting.v
theories/Props/Again.v
theories/Props/Bounds.v
theories/Props/Cli.v
theories/Props/Clients.v
theories/Props/Compression.v
theories/Props/Consistency.v
theories/Props/Conversions.v
theories/Props/Crash.v
theories/Props/Determinism.v
theories/Props/Documents.v
theories/Props/EdgeNames.v
theories/Props/Enabling.v
theories/Props/Ending.v
theories/Props/Examples.v
theories/Props/Exec.v
theories/Props/Failures.v
theories/Props/Files.v
theories/Props/Guards.v
theories/Props/Handle.v
theories/Props/Ids.v
theories/Props/Keep.v
theories/Props/KeepMore.v
theories/Props/Laws.v
theories/Props/Layout.v
theories/Props/Leaves.v
theories/Props/Lines.v
theories/Props/Lists.v
theories/Props/Loader.v
theories/Props/Order.v
theories/Props/Paths.v
theories/Props/Place.v
theories/Props/Print.v
theories/Props/Pruning.v
theories/Props/Queries.v
theories/Props/Reachability.v
theories/Props/Recipes.v
theories/Props/Reduction.v
theories/Props/Refinement.v
theories/Props/Saving.v
theories/Props/Server.v
theories/Props/Simulation.v
theories/Props/Spacing.v
theories/Props/Stand.v
theories/Props/States.v
theories/Props/Steps.v
theories/Props/Store.v
theories/Props/Subst.v
theories/Props/Systems.v
theories/Props/Text.v
theories/Props/Two.v
theories/Props/Wire.v
theories/Props/Written.v
theories/Props/Xml.v
theories/Spec/AdmitSpec.v
theories/Spec/BoundSpec.v
theories/Spec/CliSpec.v
theories/Spec/ConsistencySpec.v
theories/Spec/ConvSpec.v
theories/Spec/CrashSpec.v
theories/Spec/EnableSpec.v
theories/Spec/EndSpec.v
theories/Spec/ExecSpec.v
theories/Spec/FailureSpec.v
theories/Spec/FileSpec.v
theories/Spec/GuardSpec.v
theories/Spec/HandleSpec.v
theories/Spec/IdSpec.v
theories/Spec/KeepSpec.v
theories/Spec/LawSpec.v
theories/Spec/LayoutSpec.v
theories/Spec/LeavesSpec.v
theories/Spec/LineSpec.v
theories/Spec/LoaderSpec.v
theories/Spec/NameSpec.v
theories/Spec/OrderSpec.v
theories/Spec/PathSpec.v
theories/Spec/PlaceSpec.v
theories/Spec/PrintSpec.v
theories/Spec/PruneSpec.v
theories/Spec/QuerySpec.v
theories/Spec/ReachSpec.v
theories/Spec/RecipeSpec.v
theories/Spec/ReduceSpec.v
theories/Spec/RefineSpec.v
theories/Spec/RunSpec.v
theories/Spec/SameSpec.v
theories/Spec/SaveSpec.v
theories/Spec/ServerSpec.v
theories/Spec/SimSpec.v
theories/Spec/SpacingSpec.v
theories/Spec/StandSpec.v
theories/Spec/StateSpec.v
theories/Spec/StepSpec.v
theories/Spec/SubstSpec.v
theories/Spec/SystemSpec.v
theories/Spec/TextSpec.v
theories/Spec/WireSpec.v
theories/Spec/WrittenSpec.v
theories/Spec/XmlSpec.v

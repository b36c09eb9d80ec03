-Q theories Verif
theories/TaskModel.v
theories/TaskInv.v
theories/TaskSafe.v
theories/TaskSpec.v
theories/TaskView.v
theories/TaskTrace.v
theories/TaskWalk.v
theories/TaskLegal.v
theories/TaskMore.v
theories/TaskAlive.v
theories/TaskCtx.v
theories/TaskFacts.v
theories/TaskLoop.v
theories/TaskParams.v
theories/TaskFacts2.v
theories/TaskRun.v
theories/TaskLazy.v
theories/PropsTask.v
theories/GenModel.v
theories/GenSpec.v
theories/GenInv.v
theories/GenFacts.v
theories/GenLoop.v
theories/GenFacts2.v
theories/GenCall.v
theories/GenRun.v
theories/PropsGen.v
theories/AGenModel.v
theories/AGenSpec.v
theories/AGenInv.v
theories/AGenStep.v
theories/AGenFacts.v
theories/AGenWait.v
theories/AGenLoop.v
theories/AGenOwn.v
theories/AGenWalk.v
theories/AGenMore.v
theories/AGenRun.v
theories/PropsAGen.v
theories/QtModel.v
theories/QtSpec.v
theories/QtInv.v
theories/QtAwait.v
theories/QtReach.v
theories/QtWrap.v
theories/QtTrace.v
theories/QtBehave.v
theories/QtCall.v
theories/QtEnds.v
theories/QtCall2.v
theories/QtEnds2.v
theories/PropsSignal.v
theories/QtObj.v
theories/QtIO.v
theories/QtIOSpec.v
theories/QtIOFacts.v
theories/QtIOEnds.v
theories/PropsIO.v
theories/QtStuck.v
theories/QtNet.v
theories/QtNetSpec.v
theories/QtNetFacts.v
theories/QtNetFacts2.v
theories/QtNetFacts3.v
theories/PropsNet.v
theories/ListenModel.v
theories/ListenSpec.v
theories/ListenFacts.v
theories/PropsListen.v
theories/WsModel.v
theories/WsSpec.v
theories/WsFacts.v
theories/PropsWs.v
theories/ShapeModel.v
theories/ShapeFacts.v
theories/PropsShape.v
theories/SleepModel.v
theories/PropsSleep.v
theories/ThreadModel.v
theories/ThreadSpec.v
theories/PropsThread.v
theories/FutureModel.v
theories/FutureSpec.v
theories/PropsFuture.v
theories/DBusModel.v
theories/DBusSpec.v
theories/PropsDBus.v
theories/QmlModel.v
theories/QmlSpec.v
theories/PropsQml.v
theories/ImageModel.v
theories/ImageSpec.v
theories/PropsImage.v
theories/TaskAwait.v
theories/PropsTask2.v
theories/PropsGen2.v
theories/PropsAGen2.v
theories/PropsExact.v
theories/PropsFuture2.v
theories/PropsDBus2.v
theories/PropsQml2.v
theories/PropsImage2.v
theories/PropsIO2.v
theories/TestModel.v
theories/TestSpec.v
theories/PropsTest.v
theories/PropsThread2.v
theories/PropsListen2.v
theories/CoopSpec.v
theories/CoopFacts.v
theories/PropsCoop.v
theories/ConnectFacts.v
theories/PropsConnect.v
theories/QuitFacts.v
theories/PropsQuit.v
theories/QtLife.v
theories/PropsLife.v
theories/QtWaitOr.v
theories/PropsWrite.v
theories/PropsWs2.v
theories/QtLeak.v
theories/PropsServer.v
theories/AwaitModel.v
theories/AwaitSpec.v
theories/AwaitFacts.v
theories/PropsAwait.v
theories/RaceModel.v
theories/PropsRace.v
theories/PropsServer2.v
theories/WaitRaceModel.v
theories/PropsWaitRace.v
theories/ReadersModel.v
theories/PropsReaders.v
theories/WritersModel.v
theories/PropsWriters.v
theories/ThreadWaitModel.v
theories/PropsThreadWait.v
theories/LazyRaceModel.v
theories/PropsLazyRace.v
theories/AcceptorsModel.v
theories/PropsAcceptors.v
theories/WsAcceptorsModel.v
theories/PropsWsAcceptors.v
